(* Units, times and intervals: C48, C49, C79, C80. *)
From Coq Require Import Reals ZArith Lra Lia List String.
From Flocq Require Import Core.
From Verif Require Import Common Vec3 Float32 UnitsModel UnitsSpec.
Import ListNotations.
Open Scope R_scope.

Lemma tag_ratio_pos t : 0 < tag_ratio t.
Proof. pose proof PI_RGT_0. destruct t; cbn [tag_ratio]; try lra. apply Rmult_lt_0_compat; lra. Qed.
Lemma get_ratio_nz s : usable s -> get_ratio s <> 0.
Proof.
  destruct s as [n d|t]; cbn [usable get_ratio]; [|pose proof (tag_ratio_pos t); lra]. intros (N & D). apply Rmult_integral_contrapositive_currified; [|apply Rinv_neq_0_compat]; apply not_0_IZR; auto.
Qed.
Lemma to_si_linear s v : linear s -> to_si s v = v * get_ratio s.
Proof. intros (A & B). destruct s as [n d|[]]; auto; congruence. Qed.
Lemma from_si_linear s v : linear s -> from_si s v = v / get_ratio s.
Proof. intros (A & B). destruct s as [n d|[]]; auto; congruence. Qed.
Lemma linear_dec s : linear s \/ s = Tag CelsiusTag \/ s = Tag FahrenheitTag.
Proof. destruct s as [n d|[]]; auto; left; split; congruence. Qed.
Lemma from_to s v : usable s -> from_si s (to_si s v) = v.
Proof.
  intros U. destruct (linear_dec s) as [L|[->| ->]]; [|cbn; lra|cbn; lra]. rewrite from_si_linear, to_si_linear by auto. field. apply get_ratio_nz; auto.
Qed.
Lemma to_from s v : usable s -> to_si s (from_si s v) = v.
Proof.
  intros U. destruct (linear_dec s) as [L|[->| ->]]; [|cbn; lra|cbn; lra]. rewrite from_si_linear, to_si_linear by auto. field. apply get_ratio_nz; auto.
Qed.
(** C49: conversions *)
Theorem C49_convert : forall q s, usable s -> usable (q_scale q) -> q_si (q_as s q) = q_si q /\ q_as (q_scale q) (q_as s q) = q /\ forall s', q_as s' (q_as s q) = q_as s' q.
Proof.
  intros [s0 v] s U U0. cbn in U0. unfold q_as, q_si. cbn [q_scale q_value]. rewrite !to_from by auto. split; auto. split; [|intros; auto]. rewrite from_to; auto.
Qed.
Lemma mk_ratio_get n d : d <> 0%Z -> get_ratio (mk_ratio n d) = IZR n / IZR d.
Proof.
  intros D. unfold mk_ratio. cbn [get_ratio]. set (g := Z.gcd n d). assert (G : g <> 0%Z) by (unfold g; intros E; apply Z.gcd_eq_0_r in E; auto).
  destruct (Z.gcd_divide_l n d) as (a & A), (Z.gcd_divide_r n d) as (b & B). fold g in A, B. clearbody g. subst n d. rewrite !Z.div_mul by auto. rewrite !mult_IZR.
  assert (b <> 0%Z) by (intros ->; lia). field. split; apply not_0_IZR; auto.
Qed.
Lemma nontag_linear a : is_tag a = false -> linear a. Proof. destruct a; [split; congruence|discriminate]. Qed.
(* products, quotients and reciprocals of quantities of any scales, also affine ones, multiply the SI values *)
Theorem C49_multiply : forall a b, usable (q_scale a) -> usable (q_scale b) -> q_si (q_mul a b) = q_si a * q_si b /\ (q_si b <> 0 -> q_si (q_div a b) = q_si a / q_si b) /\ (q_si b <> 0 -> forall k, q_si (q_inv k b) = k / q_si b).
Proof.
  intros [s v] [s' v'] U U'. cbn [q_scale] in *. unfold q_mul, q_div, q_inv. cbn [q_scale q_value].
  assert (R1 : forall x, q_si (Q (Ratio 1 1) x) = x) by (intros; unfold q_si; cbn; field).
  split; [|split].
  - destruct (is_tag s || is_tag s') eqn:E; [apply R1|]. apply Bool.orb_false_iff in E as (E & E'). destruct s as [n d|], s' as [n' d'|]; try discriminate. destruct U as (N & D), U' as (N' & D').
    unfold q_si. cbn [q_scale q_value ratio_multiply]. unfold to_si at 1. unfold mk_ratio at 1. fold (get_ratio (mk_ratio (n * n') (d * d'))). rewrite mk_ratio_get by lia. cbn. rewrite !mult_IZR. field. split; apply not_0_IZR; auto.
  - intros NZ. destruct (is_tag s || is_tag s') eqn:E; [apply R1|]. apply Bool.orb_false_iff in E as (E & E'). destruct s as [n d|], s' as [n' d'|]; try discriminate. destruct U as (N & D), U' as (N' & D').
    unfold q_si in NZ |- *. cbn [q_scale q_value ratio_divide]. unfold to_si at 1. unfold mk_ratio at 1. fold (get_ratio (mk_ratio (n * d') (d * n'))). rewrite mk_ratio_get by lia. cbn in NZ |- *. rewrite !mult_IZR. field.
    assert (v' <> 0) by (intros ->; apply NZ; lra). repeat split; auto; apply not_0_IZR; auto.
  - intros NZ k. destruct (is_tag s') eqn:E; [apply R1|]. destruct s' as [n' d'|]; try discriminate. destruct U' as (N' & D').
    unfold q_si in NZ |- *. cbn [q_scale q_value ratio_divide]. unfold to_si at 1. unfold mk_ratio at 1. fold (get_ratio (mk_ratio (1 * d') (1 * n'))). rewrite mk_ratio_get by lia. unfold to_si, get_ratio in *. rewrite !mult_IZR. field.
    assert (v' <> 0) by (intros ->; apply NZ; cbn; ring). repeat split; auto; apply not_0_IZR; auto.
Qed.
(* sums, differences, multiples and negation agree with the SI values whenever the left scale is linear *)
Theorem C49_add_partial : forall a b, linear (q_scale a) -> usable (q_scale a) -> usable (q_scale b) ->
  q_si (q_add a b) = q_si a + q_si b /\ q_si (q_sub a b) = q_si a - q_si b /\ (forall k, q_si (q_smul k a) = k * q_si a) /\ (forall k, q_si (q_sdiv a k) = q_si a / k) /\ q_si (q_neg a) = - q_si a /\
  (forall v, q_si (q_add_same (q_scale a) (q_value a) v) = q_si a + q_si (Q (q_scale a) v)) /\ (forall v, q_si (q_sub_same (q_scale a) (q_value a) v) = q_si a - q_si (Q (q_scale a) v)).
Proof.
  intros [s v] b L U U'. cbn [q_scale] in *. pose proof (get_ratio_nz s U) as NZ. assert (X : forall x, q_si (Q s x) = x * get_ratio s) by (intros; apply to_si_linear; auto).
  unfold q_add, q_sub, q_smul, q_sdiv, q_neg, q_add_same, q_sub_same, q_as. cbn [q_scale q_value]. rewrite from_si_linear by auto. rewrite !X. generalize (q_si b). intros r. generalize dependent (get_ratio s). intros g NZ X.
  repeat split; intros; rewrite ?X; try ring; try (unfold Rdiv; ring); field; auto.
Qed.
(* in Celsius or Fahrenheit, sums, differences, multiples and negation never agree with the SI results *)
Theorem C49_refuted_affine : forall s, s = Tag CelsiusTag \/ s = Tag FahrenheitTag -> forall a b q, usable (q_scale q) ->
  q_si (q_add_same s a b) <> q_si (Q s a) + q_si (Q s b) /\ q_si (q_sub_same s a b) <> q_si (Q s a) - q_si (Q s b) /\ q_si (q_add (Q s a) q) <> q_si (Q s a) + q_si q /\
  (forall k, k <> 1 -> q_si (q_smul k (Q s a)) <> k * q_si (Q s a)) /\ q_si (q_neg (Q s a)) <> - q_si (Q s a).
Proof.
  intros s [->| ->] a b q U; unfold q_add_same, q_sub_same, q_add, q_as, q_smul, q_neg; cbn [q_scale q_value]; generalize (q_si q); intros r; unfold q_si; cbn; repeat split; try (intros; lra);
  intros k K E; apply K; lra.
Qed.
(* comparisons are comparisons of the SI values, in one scale and across scales *)
Theorem C49_compare : forall a b, q_lt a b = true <-> q_si a < q_si b.
Proof. intros. apply Rltb_true. Qed.
Theorem C49_compare_same : forall s a b, positive s -> (q_lt_same s a b = true <-> q_si (Q s a) < q_si (Q s b)).
Proof.
  intros s a b P. unfold q_lt_same. rewrite Rltb_true. unfold q_si. cbn [q_scale q_value]. destruct (linear_dec s) as [L|[->| ->]]; [|cbn; lra|cbn; lra].
  rewrite !to_si_linear by auto. assert (G : 0 < get_ratio s). { destruct s as [n d|t]; [|apply tag_ratio_pos]. destruct P. cbn. apply Rdiv_lt_0_compat; apply IZR_lt; auto. }
  split; intros; nra.
Qed.
Print Assumptions C49_convert.
Print Assumptions C49_multiply.
Print Assumptions C49_add_partial.
Print Assumptions C49_refuted_affine.
Print Assumptions C49_compare.
Print Assumptions C49_compare_same.
(* 20 C is 68 F is 293.15 K; 2 km * 3 ft; 1 km/h from 1 km and 1 h *)
Example C49_example : q_as (Tag FahrenheitTag) (Q (Tag CelsiusTag) 20) = Q (Tag FahrenheitTag) 68 /\ q_si (Q (Tag CelsiusTag) 20) = 29315 / 100 /\
  q_si (q_mul (Q (Ratio 1000 1) 2) (Q (Ratio 381 1250) 3)) = 2000 * 3 * 381 / 1250 /\ q_scale (q_div (Q (Ratio 1000 1) 1) (Q (Ratio 3600 1) 1)) = Ratio 5 18.
Proof.
  split; [unfold q_as, q_si; cbn; f_equal; lra|]. split; [unfold q_si; cbn; lra|]. split; [|reflexivity]. destruct (C49_multiply (Q (Ratio 1000 1) 2) (Q (Ratio 381 1250) 3)) as (E & _); [cbn; lia|cbn; lia|]. rewrite E. unfold q_si. cbn. lra.
Qed.

(** C79: named units have their defined sizes *)
Definition sized (p : string * uscale) : Prop := match unit_size (fst p) with Some x => to_si (snd p) 1 = x | None => True end.
Theorem C79_partial : forall name s x, unit_named name = Some s -> unit_size name = Some x -> name <> "Mile"%string -> to_si s 1 = x.
Proof.
  intros name s x N U M.
  assert (H : forall p, In p named_units -> fst p <> "Mile"%string -> sized p).
  { assert (F : List.Forall (fun p => fst p <> "Mile"%string -> sized p) named_units); [|rewrite List.Forall_forall in F; exact F].
    unfold named_units. repeat (apply List.Forall_cons; [intros Z; try (exfalso; apply Z; reflexivity); unfold sized; cbn; try exact I; lra|]). apply List.Forall_nil. }
  unfold unit_named in N. destruct (List.find _ named_units) as [[n s']|] eqn:E; [|discriminate]. injection N as <-. apply find_some in E as (I1 & E). apply String.eqb_eq in E. cbn in E. subst n.
  specialize (H _ I1 M). unfold sized in H. cbn [fst snd] in H. rewrite U in H. exact H.
Qed.
(* every named unit other than the two temperature scales is covered *)
Theorem C79_covered : forall name s, unit_named name = Some s -> linear s -> exists x, unit_size name = Some x.
Proof.
  intros name s N L. unfold unit_named in N. destruct (List.find _ named_units) as [[n s']|] eqn:E; [|discriminate]. injection N as <-. apply find_some in E as (I1 & E). apply String.eqb_eq in E. cbn in E. subst n.
  destruct L as (L1 & L2). cbn [snd] in *. unfold named_units in I1. cbn [In] in I1. repeat (destruct I1 as [I1|I1]; [injection I1 as <- <-; try congruence; eexists; reflexivity|]). destruct I1.
Qed.
(* the mile is 1609.34 m, not 1760 yards = 1609.344 m, and disagrees with MilesPerHour *)
Theorem C79_refuted : exists s x, unit_named "Mile" = Some s /\ unit_size "Mile" = Some x /\ to_si s 1 <> x /\
  exists h mph, unit_named "Hour" = Some h /\ unit_named "MilesPerHour" = Some mph /\ q_si (q_div (Q s 1) (Q h 1)) <> q_si (Q mph 1).
Proof.
  eexists. eexists. split; [reflexivity|]. split; [reflexivity|]. split; [cbn; lra|]. eexists. eexists. split; [reflexivity|]. split; [reflexivity|]. unfold q_si. cbn. lra.
Qed.
(* how far off the mile is: 4 mm *)
Theorem C79_mile_error : exists s x, unit_named "Mile" = Some s /\ unit_size "Mile" = Some x /\ Rabs (to_si s 1 - x) <= 4 / 1000.
Proof. eexists. eexists. split; [reflexivity|]. split; [reflexivity|]. cbn. apply Rabs_le. lra. Qed.
Print Assumptions C79_mile_error.
Print Assumptions C79_partial.
Print Assumptions C79_covered.
Print Assumptions C79_refuted.
Example C79_example : unit_named "Degree" = Some (Tag DegreeTag) /\ unit_size "Yard" = Some (3 * (12 * (254 / 10000))) /\ List.length named_units = 65%nat.
Proof. repeat split. Qed.

(** C80: Julian dates *)
Theorem C80_roundtrip : forall sp, faithful sp -> forall s,
  (forall jd, to_jd sp (from_jd sp jd s) s = jd) /\ (forall et, from_jd sp (to_jd sp et s) s = et) /\
  (forall mjd, to_mjd sp (from_mjd sp mjd s) s = mjd) /\ (forall et, from_mjd sp (to_mjd sp et s) s = et).
Proof.
  intros sp (A & B & C & D) s.
  assert (X : forall jd, to_jd sp (from_jd sp jd s) s = jd).
  { intros jd. unfold to_jd, from_jd, seconds_in, J2000_JD, SECONDS_PER_DAY. destruct s; rewrite ?A; try lra. rewrite C. lra. }
  assert (Y : forall et, from_jd sp (to_jd sp et s) s = et).
  { intros et. unfold to_jd, from_jd. replace ((J2000_JD + seconds_in sp et s / SECONDS_PER_DAY - J2000_JD) * SECONDS_PER_DAY) with (seconds_in sp et s) by (unfold SECONDS_PER_DAY; field). unfold seconds_in. destruct s; rewrite ?B; auto. rewrite D. lra. }
  split; auto. split; auto. unfold to_mjd, from_mjd. split; intros; [rewrite X; lra|]. replace (to_jd sp et s - MJD_OFFSET + MJD_OFFSET) with (to_jd sp et s) by lra. apply Y.
Qed.
(* the modified date is the date minus 2400000.5, and the elapsed years are (date - 2451545) / 365.25, in every time scale *)
Theorem C80_values : forall sp et s, to_mjd sp et s = to_jd sp et s - 24000005 / 10 /\ julian_years sp et s = (to_jd sp et s - 2451545) / (36525 / 100) /\ from_jd sp 2451545 TDB = 0 /\
  forall x, to_jd sp (et + x) TDB = to_jd sp et TDB + x / 86400.
Proof.
  intros sp et s. unfold to_mjd, julian_years, to_jd, MJD_OFFSET, J2000_JD, SECONDS_PER_JULIAN_YEAR, SECONDS_PER_DAY. split; [reflexivity|]. split; [field|]. split; [unfold from_jd, J2000_JD; ring|]. intros x. unfold seconds_in. field.
Qed.
Print Assumptions C80_roundtrip.
Print Assumptions C80_values.
(* constant offsets are faithful *)
Example C80_example : let sp := SpiceTime (fun x a b => if String.eqb a b then x else if String.eqb b "TDB" then x + 32184 / 1000 else if String.eqb a "TDB" then x - 32184 / 1000 else x) (fun _ _ => 69184 / 1000) in
  faithful sp /\ to_jd sp 0 UTC = 2451545 - 69184 / 1000 / 86400.
Proof.
  cbv zeta. split; [|unfold to_jd; cbn; unfold J2000_JD, SECONDS_PER_DAY; lra]. unfold faithful. cbn [unitim deltet]. split; [|split; [|split; intros; reflexivity]]; intros x s.
  - destruct (String.eqb s "TDB") eqn:E; [apply String.eqb_eq in E; subst; reflexivity|]. rewrite (String.eqb_sym "TDB" s), E. change (String.eqb "TDB" "TDB") with true. cbv iota. lra.
  - destruct (String.eqb s "TDB") eqn:E; [apply String.eqb_eq in E; subst; reflexivity|]. rewrite (String.eqb_sym "TDB" s), E. change (String.eqb "TDB" "TDB") with true. cbv iota. lra.
Qed.

(** C48: interval samples *)
Lemma fl_nat n : (n <= 2 ^ 24)%Z -> (0 <= n)%Z -> fl (IZR n) = IZR n.
Proof.
  intros H P. destruct (Z.eq_dec n (2 ^ 24)) as [->|E]; [|apply fl_id; apply float_int; lia].
  apply fl_id. replace (IZR (2 ^ 24)) with (IZR 1 * bpow radix2 24) by (cbn; ring). apply float_small; lia.
Qed.
Theorem C48_partial : forall i n, (2 <= n)%nat -> (Z.of_nat n - 1 <= 2 ^ 24)%Z ->
  exists l, samples i n = Ok l /\ evenly_spaced l n (i_start i) (i_end i) /\ nth 0 l 0 = i_start i /\ nth (n - 1) l 0 = i_end i /\ (i_start i <= i_end i -> List.Forall (fun t => i_start i <= t <= i_end i) l).
Proof.
  intros i n N M. destruct n as [|[|n]]; try lia. set (m := S (S n)) in *.
  assert (F : fl (INR (m - 1)) = INR (m - 1)). { rewrite INR_IZR_INZ. apply fl_nat; lia. }
  assert (P : 0 < INR (m - 1)) by (apply lt_0_INR; lia).
  unfold samples. unfold m at 1. fold m. cbv zeta. eexists. split; [reflexivity|]. rewrite F. set (dt := (i_end i - i_start i) / INR (m - 1)).
  assert (L : List.length (map (fun k => i_start i + INR k * dt) (seq 0 m)) = m) by (rewrite map_length, seq_length; auto).
  assert (G : forall k, (k < m)%nat -> nth k (map (fun k => i_start i + INR k * dt) (seq 0 m)) 0 = i_start i + INR k * dt).
  { intros k K. rewrite (nth_indep _ 0 (i_start i + INR 0 * dt)) by lia. rewrite (map_nth (fun k => i_start i + INR k * dt)). rewrite seq_nth by lia. reflexivity. }
  split; [split; auto|]. split; [rewrite G by lia; cbn; ring|]. split; [rewrite G by lia; unfold dt; field; lra|].
  intros O. rewrite List.Forall_forall. intros t I1. apply in_map_iff in I1 as (k & <- & K). apply in_seq in K. assert (KR : 0 <= INR k <= INR (m - 1)) by (split; [apply pos_INR|apply le_INR; lia]).
  assert (D : 0 <= dt) by (unfold dt; apply Rmult_le_pos; [lra|apply Rlt_le, Rinv_0_lt_compat; auto]). assert (E : INR (m - 1) * dt = i_end i - i_start i) by (unfold dt; field; lra). nra.
Qed.
Theorem C48_small : forall i, samples i 0 = Throws /\ samples i 1 = Ok [(i_start i + i_end i) / 2].
Proof. intros. split; [reflexivity|]. cbn. unfold center. do 2 f_equal. field. Qed.
Theorem C48_constructors : forall c d, duration (from_centered c d) = d /\ center (from_centered c d) = c /\ duration (from_start c d) = d /\ i_start (from_start c d) = c.
Proof. intros. unfold duration, center, from_centered, from_start. cbn. repeat split; field. Qed.
(* 2^24 + 1 is not a float: it is rounded to 2^24 *)
Lemma fl_2_24 : fl (IZR (2 ^ 24 + 1)) = IZR (2 ^ 24).
Proof.
  unfold fl, round, scaled_mantissa, cexp. assert (M : mag radix2 (IZR (2 ^ 24 + 1)) = 25%Z :> Z). { apply mag_unique_pos. cbn. lra. }
  rewrite M. cbn [FLT_exp]. replace (FLT_exp (-149) 24 25) with 1%Z by reflexivity. replace (IZR (2 ^ 24 + 1) * bpow radix2 (- (1))) with (IZR (2 ^ 23) + / 2) by (cbn; lra).
  assert (FL : Zfloor (IZR (2 ^ 23) + / 2) = (2 ^ 23)%Z) by (apply Zfloor_imp; cbn; lra). unfold ZnearestE, Znearest. rewrite FL. replace (IZR (2 ^ 23) + / 2 - IZR (2 ^ 23)) with (/ 2) by ring. rewrite Rcompare_Eq by auto.
  replace (negb (Z.even (2 ^ 23))) with false by reflexivity. unfold F2R. simpl. lra.
Qed.
Theorem C48_refuted : forall i n, i_start i < i_end i -> Z.of_nat n = (2 ^ 24 + 2)%Z -> exists l, samples i n = Ok l /\ nth (n - 1) l 0 > i_end i.
Proof.
  intros i n LT N. assert (K : exists k, n = S (S k)) by (exists (n - 2)%nat; lia). destruct K as (k & E).
  assert (I1 : INR (n - 1) = IZR (2 ^ 24 + 1)) by (rewrite INR_IZR_INZ; f_equal; lia).
  unfold samples. rewrite E. rewrite <- E. rewrite I1, fl_2_24. cbv zeta. eexists. split; [reflexivity|]. set (dt := (i_end i - i_start i) / IZR (2 ^ 24)).
  rewrite (nth_indep _ 0 (i_start i + INR 0 * dt)) by (rewrite map_length, seq_length; lia). rewrite (map_nth (fun k => i_start i + INR k * dt)). rewrite seq_nth by lia.
  cbn [Nat.add]. rewrite I1. unfold dt. replace (i_start i + IZR (2 ^ 24 + 1) * ((i_end i - i_start i) / IZR (2 ^ 24))) with (i_end i + (i_end i - i_start i) / IZR (2 ^ 24)) by (cbn; lra). cbn. lra.
Qed.
Print Assumptions C48_partial.
Print Assumptions C48_small.
Print Assumptions C48_constructors.
Print Assumptions C48_refuted.
Example C48_example : exists l, samples (Interval 10 20) 5 = Ok l /\ nth 3 l 0 = 10 + INR 3 * ((20 - 10) / INR (5 - 1)).
Proof. destruct (C48_partial (Interval 10 20) 5) as (l & E & (_ & S) & _); [lia|lia|]. exists l. split; auto. Qed.
