(* Lemmas for TiffProps. *)
From Verif Require Import Common Float32 DecodeModel DecodeSpec DecodeProofs PixelModel PixelProofs TiffModel.
From Coq Require Import Reals Lra.
From Flocq Require Import Core.
Open Scope R_scope.

(** binary32 rounding of rationals by integer arithmetic *)
(* k with 2^(k-1) <= n/d < 2^k, m the nearest integer to n/d * 2^(24-k), strictly *)
Definition up2 (e : Z) : Z := if (0 <=? e)%Z then (2 ^ e)%Z else 1%Z.
Definition cert (n d m k : Z) : bool := ((0 <? n) && (0 <? d) && (-100 <=? k) && (k <=? 100) &&
  (d * up2 (k - 1) <=? n * up2 (1 - k)) && (n * up2 (- k) <? d * up2 k) &&
  (2 * Z.abs (n * up2 (24 - k) - m * d * up2 (k - 24)) <? d * up2 (k - 24)))%Z.
Lemma up2_pos e : (0 < up2 e)%Z.
Proof. unfold up2. destruct (0 <=? e)%Z eqn:E; [apply Z.pow_pos_nonneg; lia|lia]. Qed.
Lemma up2_bpow e : IZR (up2 e) = bpow radix2 e * IZR (up2 (- e)).
Proof.
  unfold up2. destruct (Z.leb_spec 0 e), (Z.leb_spec 0 (- e)); try lia.
  - assert (e = 0%Z) by lia. subst. cbn. ring.
  - rewrite Rmult_1_r. rewrite <- (IZR_Zpower radix2 e) by auto. reflexivity.
  - replace (IZR (2 ^ (- e))) with (bpow radix2 (- e)) by (rewrite <- (IZR_Zpower radix2 (- e)) by auto; reflexivity). rewrite <- bpow_plus. replace (e + - e)%Z with 0%Z by lia. reflexivity.
Qed.
Lemma fl_cert n d m k : cert n d m k = true -> fl (IZR n / IZR d) = IZR m * bpow radix2 (k - 24).
Proof.
  unfold cert. rewrite !andb_true_iff, !Z.ltb_lt, !Z.leb_le. intros ((((((N & D) & K1) & K2) & L) & U) & M).
  apply IZR_lt in N, D. set (x := IZR n / IZR d). assert (NX : IZR n = x * IZR d) by (unfold x; field; lra). assert (XP : 0 < x) by (apply Rdiv_lt_0_compat; auto).
  apply IZR_le in L. apply IZR_lt in U. apply IZR_lt in M. rewrite !mult_IZR in L, U. rewrite mult_IZR, abs_IZR, minus_IZR, !mult_IZR in M.
  assert (PU : forall e, 0 < IZR (up2 e)) by (intros; apply (IZR_lt 0), up2_pos).
  assert (LX : bpow radix2 (k - 1) <= x). { rewrite (up2_bpow (k - 1)) in L. replace (- (k - 1))%Z with (1 - k)%Z in L by lia. rewrite NX in L. specialize (PU (1 - k)%Z). apply (Rmult_le_reg_r (IZR d * IZR (up2 (1 - k)))); [nra|]. nra. }
  assert (UX : x < bpow radix2 k). { rewrite (up2_bpow k) in U. rewrite NX in U. specialize (PU (- k)%Z). apply (Rmult_lt_reg_r (IZR d * IZR (up2 (- k)))); [nra|]. nra. }
  assert (MAG : mag radix2 x = k :> Z). { apply mag_unique. rewrite Rabs_pos_eq by lra. split; auto. }
  unfold fl, round, F2R, scaled_mantissa. cbn [Fnum Fexp]. assert (CE : cexp radix2 (FLT_exp (-149) 24) x = (k - 24)%Z). { unfold cexp. rewrite MAG. unfold FLT_exp. lia. }
  rewrite CE. f_equal. apply f_equal. apply Znearest_imp.
  rewrite (up2_bpow (24 - k)) in M. replace (- (24 - k))%Z with (k - 24)%Z in M by lia. replace (- (k - 24))%Z with (24 - k)%Z by lia. specialize (PU (k - 24)%Z). rewrite NX in M.
  replace (x * IZR d * (bpow radix2 (24 - k) * IZR (up2 (k - 24))) - IZR m * IZR d * IZR (up2 (k - 24))) with ((x * bpow radix2 (24 - k) - IZR m) * (IZR d * IZR (up2 (k - 24)))) in M by ring.
  rewrite Rabs_mult, (Rabs_pos_eq (IZR d * _)) in M by nra. apply (Rmult_lt_reg_r (IZR d * IZR (up2 (k - 24)))); [nra|]. nra.
Qed.
(* candidates *)
Definition guess_k (n d : Z) : Z := let k := (Z.log2 n - Z.log2 d)%Z in if (n * up2 (- k) <? d * up2 k)%Z then k else (k + 1)%Z.
Definition guess_m (n d k : Z) : Z := ((2 * (n * up2 (24 - k)) + d * up2 (k - 24)) / (2 * (d * up2 (k - 24))))%Z.
(* the float q nearest to v / M, times M, rounds to exactly v *)
Definition back (M v : Z) : bool :=
  let k := guess_k v M in let m := guess_m v M k in
  let d := up2 (24 - k) in let k' := guess_k (m * M) d in let m' := guess_m (m * M) d k' in
  (cert v M m k && (k <=? 24) && cert (m * M) d m' k' && (m' * up2 (k' - 24) =? v * up2 (24 - k')))%bool%Z.
Lemma up2_bpow_le e : (e <= 0)%Z -> bpow radix2 e = / IZR (up2 (- e)).
Proof. intros E. pose proof (up2_bpow e). unfold up2 in *. replace (0 <=? - e)%Z with true in * by lia. assert (0 < IZR (2 ^ - e)) by (apply (IZR_lt 0), Z.pow_pos_nonneg; lia). destruct (Z.leb_spec 0 e); [assert (e = 0%Z) by lia; subst; cbn; lra|]. apply (Rmult_eq_reg_r (IZR (2 ^ - e))); [|lra]. rewrite Rinv_l by lra. lra. Qed.
Lemma back_correct M v : back M v = true -> fl (fl (IZR v / IZR M) * IZR M) = IZR v.
Proof.
  unfold back. set (k := guess_k v M). set (m := guess_m v M k). set (d := up2 (24 - k)). set (k' := guess_k (m * M) d). set (m' := guess_m (m * M) d k'). clearbody k m k' m'.
  rewrite !andb_true_iff. intros (((C1 & K) & C2) & E). apply Z.leb_le in K. apply Z.eqb_eq in E. rewrite (fl_cert _ _ _ _ C1). apply fl_cert in C2.
  replace (IZR m * bpow radix2 (k - 24) * IZR M) with (IZR (m * M) / IZR d). 2:{ rewrite up2_bpow_le by lia. replace (- (k - 24))%Z with (24 - k)%Z by lia. fold d. rewrite mult_IZR. unfold Rdiv. ring. }
  rewrite C2. apply (f_equal IZR) in E. rewrite !mult_IZR in E. rewrite (up2_bpow (k' - 24)) in E. replace (- (k' - 24))%Z with (24 - k')%Z in E by lia.
  assert (0 < IZR (up2 (24 - k'))) by apply (IZR_lt 0), up2_pos. apply (Rmult_eq_reg_r (IZR (up2 (24 - k')))); lra.
Qed.
(* powers of two by certificate, the rest because the error of the quotient is scaled by less than the next power of two *)
Lemma back_pow : forallb (fun j => back 255 (2 ^ j)) [0; 1; 2; 3; 4; 5; 6; 7]%Z && forallb (fun j => back 65535 (2 ^ j)) [0; 1; 2; 3; 4; 5; 6; 7; 8; 9; 10; 11; 12; 13; 14; 15]%Z = true.
Proof. reflexivity. Qed.
Lemma fl_near y (v e : Z) : (0 < e <= 24)%Z -> bpow radix2 (e - 1) <= y < bpow radix2 e -> Rabs (y - IZR v) < / 2 * bpow radix2 (e - 24) -> fl y = IZR v.
Proof.
  intros He Y D. assert (0 < bpow radix2 (e - 1)) by apply bpow_gt_0. assert (MAG : mag radix2 y = e :> Z). { apply mag_unique. rewrite Rabs_pos_eq by lra. auto. }
  unfold fl, round, F2R, scaled_mantissa. cbn [Fnum Fexp]. assert (CE : cexp radix2 (FLT_exp (-149) 24) y = (e - 24)%Z). { unfold cexp. rewrite MAG. unfold FLT_exp. lia. }
  rewrite CE. assert (B1 : bpow radix2 (e - 24) * bpow radix2 (24 - e) = 1). { rewrite <- bpow_plus. replace (e - 24 + (24 - e))%Z with 0%Z by lia. reflexivity. }
  assert (B2 : IZR (radix2 ^ (24 - e)) = bpow radix2 (24 - e)) by (apply IZR_Zpower; lia).
  rewrite (Znearest_imp _ _ (v * radix2 ^ (24 - e))).
  - rewrite mult_IZR, B2. rewrite Rmult_assoc, (Rmult_comm (bpow radix2 (24 - e))), B1. ring.
  - rewrite mult_IZR, B2. replace (- (e - 24))%Z with (24 - e)%Z by lia. rewrite <- Rmult_minus_distr_r, Rabs_mult, (Rabs_pos_eq (bpow _ _)) by apply bpow_ge_0.
    assert (0 < bpow radix2 (24 - e)) by apply bpow_gt_0. apply (Rmult_lt_compat_r (bpow radix2 (24 - e))) in D; auto. rewrite Rmult_assoc, B1 in D. lra.
Qed.
Lemma back_inner n (v : Z) e : (0 < n <= 16)%Z -> (0 < e <= n)%Z -> (2 ^ (e - 1) < v < 2 ^ e)%Z -> (v < 2 ^ n - 1)%Z -> fl (fl (IZR v / IZR (2 ^ n - 1)) * IZR (2 ^ n - 1)) = IZR v.
Proof.
  intros Hn He V VM. set (M := (2 ^ n - 1)%Z). assert (N2 : (2 <= 2 ^ n)%Z) by (replace 2%Z with (2 ^ 1)%Z at 1 by reflexivity; apply Z.pow_le_mono_r; lia).
  assert (MP : 0 < IZR M) by (apply (IZR_lt 0); unfold M; lia).
  assert (P : forall k, (0 <= k)%Z -> bpow radix2 k = IZR (2 ^ k)) by (intros k K; rewrite <- IZR_Zpower by auto; reflexivity).
  set (q := IZR v / IZR M). assert (QV : q * IZR M = IZR v) by (unfold q; field; lra).
  assert (BN : bpow radix2 (- n) * IZR (2 ^ n) = 1). { rewrite <- P by lia. rewrite <- bpow_plus. replace (- n + n)%Z with 0%Z by lia. reflexivity. }
  assert (MN : IZR M = IZR (2 ^ n) - 1) by (unfold M; rewrite minus_IZR; reflexivity).
  assert (HV1 : IZR (2 ^ (e - 1)) + 1 <= IZR v) by (rewrite <- plus_IZR; apply IZR_le; lia).
  assert (HV2 : IZR v + 1 <= IZR (2 ^ e)) by (rewrite <- plus_IZR; apply IZR_le; lia).
  assert (Q1 : bpow radix2 (e - n - 1) <= q).
  { replace (e - n - 1)%Z with (e - 1 + - n)%Z by lia. rewrite bpow_plus, P by lia. apply (Rmult_le_reg_r (IZR M)); auto. rewrite QV.
    assert (0 < bpow radix2 (- n)) by apply bpow_gt_0. assert (0 < IZR (2 ^ (e - 1))) by (apply (IZR_lt 0), Z.pow_pos_nonneg; lia). rewrite MN. replace (IZR (2 ^ (e - 1)) * bpow radix2 (- n) * (IZR (2 ^ n) - 1)) with (IZR (2 ^ (e - 1)) * (bpow radix2 (- n) * IZR (2 ^ n)) - IZR (2 ^ (e - 1)) * bpow radix2 (- n)) by ring. rewrite BN. nra. }
  assert (Q2 : q < bpow radix2 (e - n)).
  { replace (e - n)%Z with (e + - n)%Z by lia. rewrite bpow_plus, P by lia. apply (Rmult_lt_reg_r (IZR M)); auto. rewrite QV.
    assert (BP : 0 < bpow radix2 (- n)) by apply bpow_gt_0. rewrite MN. replace (IZR (2 ^ e) * bpow radix2 (- n) * (IZR (2 ^ n) - 1)) with (IZR (2 ^ e) * (bpow radix2 (- n) * IZR (2 ^ n)) - IZR (2 ^ e) * bpow radix2 (- n)) by ring. rewrite BN.
    destruct (Z.eq_dec e n) as [->|NE].
    - assert (IZR v + 2 <= IZR (2 ^ n)) by (rewrite <- plus_IZR; apply IZR_le; lia). rewrite (Rmult_comm (IZR (2 ^ n)) (bpow _ _)), BN. lra.
    - assert (IZR (2 ^ e) * bpow radix2 (- n) < 1); [|lra]. rewrite <- P by lia. rewrite <- bpow_plus. change 1 with (bpow radix2 0). apply bpow_lt. lia. }
  assert (QP : 0 < q) by (apply Rlt_le_trans with (2 := Q1); apply bpow_gt_0).
  assert (MAG : mag radix2 q = (e - n)%Z :> Z) by (apply mag_unique; rewrite Rabs_pos_eq by lra; auto).
  assert (ERR : Rabs (fl q - q) <= / 2 * bpow radix2 (e - n - 24)).
  { unfold fl. eapply Rle_trans; [apply error_le_half_ulp; apply FLT_exp_valid; reflexivity|]. rewrite ulp_neq_0 by lra. unfold cexp. rewrite MAG. unfold FLT_exp. rewrite Z.max_l by lia. lra. }
  assert (E2 : Rabs (fl q * IZR M - IZR v) < / 2 * bpow radix2 (e - 24)).
  { rewrite <- QV, <- Rmult_minus_distr_r, Rabs_mult, (Rabs_pos_eq (IZR M)) by lra. apply Rle_lt_trans with (/ 2 * bpow radix2 (e - n - 24) * IZR M); [apply Rmult_le_compat_r; lra|].
    replace (e - n - 24)%Z with (e - 24 + - n)%Z by lia. rewrite bpow_plus. assert (0 < bpow radix2 (e - 24)) by apply bpow_gt_0. assert (0 < bpow radix2 (- n)) by apply bpow_gt_0. rewrite MN.
    replace (/ 2 * (bpow radix2 (e - 24) * bpow radix2 (- n)) * (IZR (2 ^ n) - 1)) with (/ 2 * bpow radix2 (e - 24) * (bpow radix2 (- n) * IZR (2 ^ n)) - / 2 * bpow radix2 (e - 24) * bpow radix2 (- n)) by ring. rewrite BN. nra. }
  apply fl_near with e; [lia| |exact E2]. assert (bpow radix2 (e - 24) <= 1) by (change 1 with (bpow radix2 0); apply bpow_le; lia). apply Rabs_def2 in E2. rewrite !P by lia. lra.
Qed.
Lemma back_any M v : (M = 255 \/ M = 65535)%Z -> (0 < v <= M)%Z -> fl (fl (IZR v / IZR M) * IZR M) = IZR v.
Proof.
  intros HM V. set (e := (Z.log2 v + 1)%Z). pose proof (Z.log2_spec v ltac:(lia)) as LS. pose proof (Z.log2_nonneg v) as L0. replace (Z.succ (Z.log2 v)) with e in LS by (unfold e; lia).
  pose proof back_pow as BP. apply andb_prop in BP. destruct BP as (B8 & B16). rewrite forallb_forall in B8, B16.
  assert (LE : (Z.log2 v < (if M =? 255 then 8 else 16))%Z). { destruct HM as [->| ->]; cbn [Z.eqb Pos.eqb]; apply Z.log2_lt_pow2; lia. }
  destruct (Z.eq_dec v (2 ^ Z.log2 v)) as [EQ|NE].
  - apply back_correct. rewrite EQ. destruct HM as [->| ->]; cbn [Z.eqb Pos.eqb] in LE; [apply B8|apply B16]; cbn [In]; lia.
  - destruct (Z.eq_dec v M) as [->|NM].
    + assert (IZR M <> 0) by (destruct HM as [->| ->]; lra). replace (IZR M / IZR M) with (IZR 1) by (field; auto). rewrite !float_le24 by (destruct HM as [->| ->]; lia). rewrite Rmult_1_l. apply float_le24. destruct HM as [->| ->]; lia.
    + destruct HM as [->| ->]; cbn [Z.eqb Pos.eqb] in LE; [apply (back_inner 8 v e)|apply (back_inner 16 v e)]; replace (e - 1)%Z with (Z.log2 v) by (unfold e; lia); try lia; change (2 ^ 8 - 1)%Z with 255%Z; change (2 ^ 16 - 1)%Z with 65535%Z; lia.
Qed.
Lemma scale_back_exact M v : (M = 255 \/ M = 65535)%Z -> (0 <= v <= M)%Z -> fl (unit_value M v * fl (IZR M)) = IZR v.
Proof.
  intros HM V. unfold unit_value. rewrite !float_le24 by lia. destruct (Z.eq_dec v 0) as [->|N].
  - replace (0 / IZR M) with 0 by (unfold Rdiv; ring). rewrite fl_0, Rmult_0_l. apply fl_0.
  - apply back_any; auto. lia.
Qed.

(** loops that only write right values *)
Section Adv.
Context {S : Type} (shape : S -> Prop) (right : S -> Z -> Z -> Prop).
Definition adv (body : S -> outcome S) (D : Z -> Z -> Prop) : Prop :=
  forall s, shape s -> exists s', body s = Ok s' /\ shape s' /\ forall ch p, right s ch p \/ D ch p -> right s' ch p.
Lemma adv_for n f (D : Z -> Z -> Z -> Prop) : (forall i, (0 <= i < Z.of_nat n)%Z -> adv (f i) (D i)) -> adv (for_ n f) (fun ch p => exists i, (0 <= i < Z.of_nat n)%Z /\ D i ch p).
Proof.
  induction n as [|n IH]; intros H s Hs; cbn [for_].
  - exists s. split; auto. split; auto. intros ch p [R|(i & I & _)]; auto. lia.
  - destruct (IH (fun i I => H i ltac:(lia)) s Hs) as (s1 & -> & S1 & R1). cbn [obind]. destruct (H (Z.of_nat n) ltac:(lia) s1 S1) as (s2 & -> & S2 & R2). exists s2. split; auto. split; auto.
    intros ch p [R|(i & I & X)]; [auto|]. destruct (Z.eq_dec i (Z.of_nat n)) as [->|]; [auto|]. apply R2. left. apply R1. right. exists i. split; auto. lia.
Qed.
Lemma adv_weaken body (D D' : Z -> Z -> Prop) : adv body D -> (forall ch p, D' ch p -> D ch p) -> adv body D'.
Proof. intros H I s Hs. destruct (H s Hs) as (s' & E & S' & R). exists s'. split; auto. split; auto. intros ch p [|]; auto. Qed.
End Adv.
Lemma tile_of n step x : (0 < step)%Z -> (0 <= x < n)%Z -> exists i r, (0 <= i < Z.of_nat (tiles n step))%Z /\ (0 <= r < Z.min step (n - i * step))%Z /\ x = (i * step + r)%Z.
Proof.
  intros S X. exists (x / step)%Z, (x mod step)%Z. pose proof (Z.div_mod x step ltac:(lia)). pose proof (Z.mod_pos_bound x step S). pose proof (Z.div_pos x step ltac:(lia) S).
  assert (L : (x / step < (n + step - 1) / step)%Z). { apply Z.div_lt_upper_bound; auto. pose proof (Z.div_mod (n + step - 1) step ltac:(lia)). pose proof (Z.mod_pos_bound (n + step - 1) step S). nia. }
  unfold tiles. split; [lia|]. split; [|lia]. split; [lia|]. apply Z.min_glb_lt; nia.
Qed.
Lemma tile_in n step i : (0 < step)%Z -> (0 <= i < Z.of_nat (tiles n step))%Z -> (0 <= i * step < n)%Z.
Proof.
  intros S I. unfold tiles in I. assert (i < (n + step - 1) / step)%Z by lia. split; [nia|]. pose proof (Z.div_mod (n + step - 1) step ltac:(lia)). pose proof (Z.mod_pos_bound (n + step - 1) step S). nia.
Qed.
Lemma bytes_ok k (a : arr) i g : (0 <= i)%Z -> (i + Z.of_nat k <= asz a)%Z -> (forall j, (0 <= j < Z.of_nat k)%Z -> aget a (i + j)%Z = g j) -> bytes_at k a i = Ok (map g (map Z.of_nat (seq 0 k))).
Proof.
  revert i g. induction k as [|k IH]; intros i g I L G; auto. cbn [bytes_at]. rewrite rd_ok by lia. cbn [obind]. rewrite (IH (i + 1)%Z (fun j => g (j + 1)%Z)); [|lia|lia|intros j J; rewrite <- G by lia; f_equal; lia].
  cbn [obind]. cbn [seq map]. f_equal. f_equal; [rewrite <- G by lia; f_equal; lia|]. rewrite <- seq_shift, !map_map. apply map_ext. intros j. f_equal. lia.
Qed.
Lemma as_int_small z : (0 <= z < 2 ^ 31)%Z -> as_int z = z.
Proof. intros Z0. unfold as_int. rewrite Z.mod_small by lia. destruct (Z.leb_spec (2 ^ 31) z); lia. Qed.
Lemma sz_small z : (0 <= z < 2 ^ 64)%Z -> sz z = z.
Proof. intros. apply Z.mod_small. auto. Qed.
