(* C154: arithmetic of spectra, in C++ and in Python. *)
From Coq Require Import ZArith Reals Lra Lia List String Bool.
From Flocq Require Import Core.
From Flocq Require Import IEEE754.BinarySingleNaN.
From Verif Require Import SpectrumOpsModel.
Import ListNotations.

(** ** Specification *)
(* bin i of r is f of bin i of d *)
Definition per_bin (f : F32 -> F32) (d r : list F32) : Prop := List.length r = List.length d /\ forall i v, nth_error d i = Some v -> nth_error r i = Some (f v).
(* ... of bin i of d and of t *)
Definition per_bins (f : F32 -> F32 -> F32) (d t r : list F32) : Prop := List.length r = List.length d /\ forall i v w, nth_error d i = Some v -> nth_error t i = Some w -> nth_error r i = Some (f v w).
(* the real number a finite bin is *)
Definition num (x : F32) : R := B2R x.
Definition finite (x : F32) : Prop := is_finite x = true.

(** ** Loops *)
Lemma write_length d i v : List.length (write d i v) = List.length d.
Proof. unfold write. pose proof (firstn_skipn i d) as E. apply (f_equal (@List.length _)) in E. rewrite app_length in *. destruct (skipn i d); cbn in *; lia. Qed.
Lemma write_nth d i v j : (i < List.length d)%nat -> nth_error (write d i v) j = if Nat.eqb j i then Some v else nth_error d j.
Proof.
  unfold write. revert i j. induction d as [|x r IH]; intros [|i] [|j] L; cbn in *; try lia; auto.
  specialize (IH i j ltac:(lia)). cbn in IH. auto.
Qed.
Lemma nth_of d i v : nth_error d i = Some v -> nth i d fnan = v.
Proof. apply nth_error_nth. Qed.
Lemma write_same_nth d i v j : (i < List.length d)%nat -> j <> i -> nth j (write d i v) fnan = nth j d fnan.
Proof.
  intros L N. destruct (nth_error d j) as [w|] eqn:E.
  - rewrite (nth_of _ _ _ E). apply nth_of. rewrite write_nth by auto. destruct (Nat.eqb_spec j i); [contradiction|auto].
  - apply nth_error_None in E. rewrite !nth_overflow; auto. rewrite write_length. auto.
Qed.
Lemma scalar_length o k n : forall i d, List.length (scalar_loop o k n i d) = List.length d.
Proof. induction n; intros; cbn; auto. rewrite IHn, write_length. auto. Qed.
Lemma bins_length o t n : forall i d, List.length (bins_loop o t n i d) = List.length d.
Proof. induction n; intros; cbn; auto. rewrite IHn, write_length. auto. Qed.
Lemma number_loop o k n : forall i d, (i + n <= List.length d)%nat -> forall j v, nth_error d j = Some v ->
  nth_error (scalar_loop o (Number k) n i d) j = Some (if (i <=? j)%nat && (j <? i + n)%nat then fop o v k else v).
Proof.
  induction n as [|n IH]; intros i d L j v E; cbn [scalar_loop].
  - rewrite E. destruct (Nat.leb_spec i j), (Nat.ltb_spec j (i + 0)); cbn; auto; lia.
  - cbn [read]. set (d' := write _ _ _). assert (W : nth_error d' j = if Nat.eqb j i then Some (fop o (nth i d fnan) k) else nth_error d j) by (apply write_nth; lia).
    destruct (Nat.eqb_spec j i) as [->|N].
    + rewrite (IH (S i) d' ltac:(unfold d'; rewrite write_length; lia) i _ W). rewrite (nth_of _ _ _ E). destruct (Nat.leb_spec (S i) i); [lia|]. cbn [andb]. rewrite Nat.leb_refl. destruct (Nat.ltb_spec i (i + S n)); [auto|lia].
    + rewrite (IH (S i) d' ltac:(unfold d'; rewrite write_length; lia) j v ltac:(rewrite W; auto)).
      destruct (Nat.leb_spec (S i) j), (Nat.leb_spec i j), (Nat.ltb_spec j (S i + n)), (Nat.ltb_spec j (i + S n)); cbn; auto; lia.
Qed.
Lemma own_passed o b n : forall i d, (b < i)%nat -> (i + n <= List.length d)%nat -> scalar_loop o (OwnBin b) n i d = scalar_loop o (Number (nth b d fnan)) n i d.
Proof.
  induction n as [|n IH]; intros i d B L; cbn [scalar_loop]; auto. cbn [read]. rewrite IH by (rewrite ?write_length; lia). rewrite write_same_nth by lia. auto.
Qed.
Lemma own_loop o b n : forall i d k, (i <= b)%nat -> (b < i + n)%nat -> (i + n <= List.length d)%nat -> nth_error d b = Some k -> forall j v, nth_error d j = Some v ->
  nth_error (scalar_loop o (OwnBin b) n i d) j = Some (if (j <? i)%nat || (i + n <=? j)%nat then v else if (j <=? b)%nat then fop o v k else fop o v (fop o k k)).
Proof.
  induction n as [|n IH]; intros i d k B1 B2 L K j v E; [lia|]. cbn [scalar_loop read]. rewrite (nth_of _ _ _ K). set (d' := write _ _ _).
  assert (W : forall j, nth_error d' j = if Nat.eqb j i then Some (fop o (nth i d fnan) k) else nth_error d j) by (intros; apply write_nth; lia).
  assert (LD : List.length d' = List.length d) by apply write_length.
  destruct (Nat.eq_dec i b) as [->|NB].
  - rewrite own_passed by lia. rewrite (nth_of _ _ _ K) in W. assert (KB : nth b d' fnan = fop o k k) by (apply nth_of; rewrite W, Nat.eqb_refl; auto). rewrite KB.
    destruct (Nat.eqb_spec j b) as [->|N].
    + assert (v = k) as -> by congruence. rewrite (number_loop o (fop o k k) n (S b) d' ltac:(lia) b (fop o k k)) by (rewrite W, Nat.eqb_refl; auto).
      destruct (Nat.leb_spec (S b) b); [lia|]. cbn [andb]. destruct (Nat.ltb_spec b b), (Nat.leb_spec (b + S n) b), (Nat.leb_spec b b); cbn; auto; lia.
    + rewrite (number_loop o (fop o k k) n (S b) d' ltac:(lia) j v) by (rewrite W; destruct (Nat.eqb_spec j b); [contradiction|auto]).
      destruct (Nat.leb_spec (S b) j), (Nat.ltb_spec j (S b + n)), (Nat.ltb_spec j b), (Nat.leb_spec (b + S n) j), (Nat.leb_spec j b); cbn; auto; lia.
  - assert (KB : nth_error d' b = Some k) by (rewrite W; destruct (Nat.eqb_spec b i); [lia|auto]).
    destruct (Nat.eqb_spec j i) as [->|N].
    + rewrite (IH (S i) d' k ltac:(lia) ltac:(lia) ltac:(lia) KB i (fop o v k)) by (rewrite W, Nat.eqb_refl, (nth_of _ _ _ E); auto).
      destruct (Nat.ltb_spec i (S i)); [|lia]. cbn [orb]. destruct (Nat.ltb_spec i i), (Nat.leb_spec (i + S n) i), (Nat.leb_spec i b); cbn; auto; lia.
    + rewrite (IH (S i) d' k ltac:(lia) ltac:(lia) ltac:(lia) KB j v) by (rewrite W; destruct (Nat.eqb_spec j i); [contradiction|auto]).
      destruct (Nat.ltb_spec j (S i)), (Nat.leb_spec (S i + n) j), (Nat.ltb_spec j i), (Nat.leb_spec (i + S n) j), (Nat.leb_spec j b); cbn; auto; lia.
Qed.
Lemma other_loop o t n : forall i d, (i + n <= List.length d)%nat -> forall j v w, nth_error d j = Some v -> nth_error t j = Some w ->
  nth_error (bins_loop o (Some t) n i d) j = Some (if (i <=? j)%nat && (j <? i + n)%nat then fop o v w else v).
Proof.
  induction n as [|n IH]; intros i d L j v w E T; cbn [bins_loop].
  - rewrite E. destruct (Nat.leb_spec i j), (Nat.ltb_spec j (i + 0)); cbn; auto; lia.
  - set (d' := write _ _ _). assert (W : nth_error d' j = if Nat.eqb j i then Some (fop o (nth i d fnan) (nth i t fnan)) else nth_error d j) by (apply write_nth; lia).
    assert (LD : List.length d' = List.length d) by apply write_length. destruct (Nat.eqb_spec j i) as [->|N].
    + rewrite (IH (S i) d' ltac:(lia) i _ _ W T). rewrite (nth_of _ _ _ E), (nth_of _ _ _ T). destruct (Nat.leb_spec (S i) i); [lia|]. cbn [andb]. rewrite Nat.leb_refl. destruct (Nat.ltb_spec i (i + S n)); [auto|lia].
    + rewrite (IH (S i) d' ltac:(lia) j v w ltac:(rewrite W; auto) T).
      destruct (Nat.leb_spec (S i) j), (Nat.leb_spec i j), (Nat.ltb_spec j (S i + n)), (Nat.ltb_spec j (i + S n)); cbn; auto; lia.
Qed.
Lemma self_loop o n : forall i d, (i + n <= List.length d)%nat -> forall j v, nth_error d j = Some v ->
  nth_error (bins_loop o None n i d) j = Some (if (i <=? j)%nat && (j <? i + n)%nat then fop o v v else v).
Proof.
  induction n as [|n IH]; intros i d L j v E; cbn [bins_loop].
  - rewrite E. destruct (Nat.leb_spec i j), (Nat.ltb_spec j (i + 0)); cbn; auto; lia.
  - set (d' := write _ _ _). assert (W : nth_error d' j = if Nat.eqb j i then Some (fop o (nth i d fnan) (nth i d fnan)) else nth_error d j) by (apply write_nth; lia).
    assert (LD : List.length d' = List.length d) by apply write_length. destruct (Nat.eqb_spec j i) as [->|N].
    + rewrite (IH (S i) d' ltac:(lia) i _ W). rewrite (nth_of _ _ _ E). destruct (Nat.leb_spec (S i) i); [lia|]. cbn [andb]. rewrite Nat.leb_refl. destruct (Nat.ltb_spec i (i + S n)); [auto|lia].
    + rewrite (IH (S i) d' ltac:(lia) j v ltac:(rewrite W; auto)).
      destruct (Nat.leb_spec (S i) j), (Nat.leb_spec i j), (Nat.ltb_spec j (S i + n)), (Nat.ltb_spec j (i + S n)); cbn; auto; lia.
Qed.

(** ** C++ *)
(* with a number: every bin, for the assignments and for both orders of the binary operators; a - s and a / s put the number on the left *)
Theorem C154_number : forall o k d, per_bin (fun v => fop o v k) d (scalar_assign o d (Number k)) /\ per_bin (fun v => fop o v k) d (scalar_op o d (Number k)) /\
  per_bin (fun v => match o with Add | Mul => fop o v k | Sub | Div => fop o k v end) d (left_op o k d) /\ per_bin Bopp d (bins_neg d).
Proof.
  intros o k d. assert (A : forall o, per_bin (fun v => fop o v k) d (scalar_assign o d (Number k))).
  { intros o'. split; [apply scalar_length|]. intros i v E. unfold scalar_assign. rewrite (number_loop _ k (List.length d) 0 d ltac:(lia) i v E). assert (L : (i < List.length d)%nat) by (apply nth_error_Some; congruence). cbn [Nat.leb]. rewrite Nat.add_0_l. destruct (Nat.ltb_spec i (List.length d)); [auto|lia]. }
  assert (M : forall f, per_bin f d (map f d)) by (intros f; split; [apply map_length|intros i v E; rewrite nth_error_map, E; auto]).
  split; [apply A|]. split; [apply A|]. split; [|apply M]. destruct o; cbn [left_op]; [apply A|apply (M (fun v => fop Sub k v))|apply A|apply (M (fun v => fop Div k v))].
Qed.
Print Assumptions C154_number.
(* with a spectrum: bin by bin, also when the spectrum is the object itself *)
Theorem C154_spectrum : forall o d t, List.length t = List.length d -> per_bins (fop o) d t (bins_assign o d (Some t)) /\ per_bins (fop o) d t (bins_op o d t) /\ per_bins (fop o) d d (bins_assign o d None).
Proof.
  intros o d t L. assert (A : per_bins (fop o) d t (bins_assign o d (Some t))).
  { split; [apply bins_length|]. intros i v w E T. unfold bins_assign. rewrite (other_loop _ t (List.length d) 0 d ltac:(lia) i v w E T). assert (I : (i < List.length d)%nat) by (apply nth_error_Some; congruence). cbn [Nat.leb]. rewrite Nat.add_0_l. destruct (Nat.ltb_spec i (List.length d)); [auto|lia]. }
  split; [exact A|]. split; [exact A|]. split; [apply bins_length|]. intros i v w E T. assert (w = v) as -> by congruence. unfold bins_assign. rewrite (self_loop _ (List.length d) 0 d ltac:(lia) i v E).
  assert (I : (i < List.length d)%nat) by (apply nth_error_Some; congruence). cbn [Nat.leb]. rewrite Nat.add_0_l. destruct (Nat.ltb_spec i (List.length d)); [auto|lia].
Qed.
Print Assumptions C154_spectrum.
(* s op s[j] is s op the value of s[j]; s op= s[j] is that up to bin j, but the bins after j meet the value s[j] has after the assignment *)
Theorem C154_own_bin_partial : forall o d j k, nth_error d j = Some k ->
  per_bin (fun v => fop o v k) d (scalar_op o d (OwnBin j)) /\
  forall i v, nth_error d i = Some v -> nth_error (scalar_assign o d (OwnBin j)) i = Some (if (i <=? j)%nat then fop o v k else fop o v (fop o k k)).
Proof.
  intros o d j k K. split.
  - unfold scalar_op. cbn [read]. rewrite (nth_of _ _ _ K). apply C154_number.
  - intros i v E. assert (I : (i < List.length d)%nat) by (apply nth_error_Some; congruence). assert (J : (j < List.length d)%nat) by (apply nth_error_Some; congruence). unfold scalar_assign.
    rewrite (own_loop o j (List.length d) 0 d k ltac:(lia) ltac:(lia) ltac:(lia) K i v E). destruct (Nat.ltb_spec i 0); [lia|]. cbn [orb]. destruct (Nat.leb_spec (0 + List.length d) i); [lia|auto].
Qed.
Print Assumptions C154_own_bin_partial.
Lemma round_num (x : F32) : round radix2 (SpecFloat.fexp 24 128) ZnearestE (B2R x) = B2R x.
Proof. apply round_generic; [apply valid_rnd_N|]. apply generic_format_B2R. Qed.
Lemma small_num (x : F32) : Rlt_bool (Rabs (B2R x)) (bpow radix2 128) = true.
Proof. apply Rlt_bool_true. apply abs_B2R_lt_emax. Qed.
Lemma div_self k : finite k -> num k <> 0%R -> finite (fop Div k k) /\ num (fop Div k k) = 1%R.
Proof.
  intros F N. unfold finite, num, fop in *. pose proof (Bdiv_correct 24 128 _ _ mode_NE k k N) as H. replace (B2R k / B2R k)%R with 1%R in H by (field; auto).
  assert (O : round radix2 (SpecFloat.fexp 24 128) (round_mode mode_NE) 1 = 1%R).
  { apply round_generic; [apply valid_rnd_round_mode|]. change 1%R with (bpow radix2 0). apply generic_format_bpow. unfold SpecFloat.fexp, SpecFloat.emin. lia. }
  rewrite O in H. rewrite Rabs_R1 in H. rewrite Rlt_bool_true in H by (change 1%R with (bpow radix2 0); apply bpow_lt; lia). destruct H as (A & B & _). rewrite B. auto.
Qed.
Lemma div_one v k : finite v -> num k = 1%R -> finite (fop Div v k) /\ num (fop Div v k) = num v.
Proof.
  intros F N. unfold finite, num, fop in *. pose proof (Bdiv_correct 24 128 _ _ mode_NE v k ltac:(rewrite N; lra)) as H. rewrite N in H. replace (B2R v / 1)%R with (B2R v) in H by field.
  cbn [round_mode] in H. rewrite round_num, small_num in H. destruct H as (A & B & _). rewrite B. auto.
Qed.
Lemma sub_self k : finite k -> finite (fop Sub k k) /\ num (fop Sub k k) = 0%R.
Proof.
  intros F. unfold finite, num, fop in *. pose proof (Bminus_correct 24 128 _ _ mode_NE k k F F) as H. replace (B2R k - B2R k)%R with 0%R in H by ring.
  rewrite round_0 in H by apply valid_rnd_round_mode. rewrite Rabs_R0, Rlt_bool_true in H by apply bpow_gt_0. destruct H as (A & B & _). auto.
Qed.
Lemma sub_zero v k : finite v -> finite k -> num k = 0%R -> finite (fop Sub v k) /\ num (fop Sub v k) = num v.
Proof.
  intros F G N. unfold finite, num, fop in *. pose proof (Bminus_correct 24 128 _ _ mode_NE v k F G) as H. rewrite N in H. replace (B2R v - 0)%R with (B2R v) in H by ring.
  cbn [round_mode] in H. rewrite round_num, small_num in H. destruct H as (A & B & _). auto.
Qed.
(* the operation on a bin: the exact result rounded to the nearest binary32 number, as long as that is in range *)
Definition exact (o : op) (a b : R) : R := match o with Add => a + b | Sub => a - b | Mul => a * b | Div => a / b end%R.
Definition nearest (x : R) : R := round radix2 (FLT_exp (-149) 24) ZnearestE x.
Theorem C154_rounding : forall o x y, finite x -> finite y -> (o = Div -> num y <> 0%R) -> (Rabs (nearest (exact o (num x) (num y))) < bpow radix2 128)%R ->
  finite (fop o x y) /\ num (fop o x y) = nearest (exact o (num x) (num y)).
Proof.
  intros o x y FX FY NZ B. unfold finite, num, nearest in *. change (FLT_exp (-149) 24) with (SpecFloat.fexp 24 128) in *. destruct o; cbn [fop exact] in *.
  - pose proof (Bplus_correct 24 128 _ _ mode_NE x y FX FY) as H. cbn [round_mode] in H. rewrite Rlt_bool_true in H by auto. tauto.
  - pose proof (Bminus_correct 24 128 _ _ mode_NE x y FX FY) as H. cbn [round_mode] in H. rewrite Rlt_bool_true in H by auto. tauto.
  - pose proof (Bmult_correct 24 128 _ _ mode_NE x y) as H. cbn [round_mode] in H. rewrite Rlt_bool_true in H by auto. rewrite FX, FY in H. tauto.
  - pose proof (Bdiv_correct 24 128 _ _ mode_NE x y (NZ eq_refl)) as H. cbn [round_mode] in H. rewrite Rlt_bool_true in H by auto. rewrite FX in H. tauto.
Qed.
Print Assumptions C154_rounding.
(* full statement: s op= s[j] is per_bin for every bin j. Refuted: s /= s[0] divides the first bin only, and s -= s[0] subtracts from the first bin only, for every spectrum of
   finite numbers whose first is not 0 *)
Theorem C154_refuted_normalise : forall d k, nth_error d 0 = Some k -> finite k -> num k <> 0%R -> forall i v, (0 < i)%nat -> nth_error d i = Some v -> finite v ->
  (exists w, nth_error (scalar_assign Div d (OwnBin 0)) i = Some w /\ finite w /\ num w = num v) /\
  (exists w, nth_error (scalar_assign Sub d (OwnBin 0)) i = Some w /\ finite w /\ num w = num v) /\
  nth_error (scalar_op Div d (OwnBin 0)) i = Some (fop Div v k) /\ nth_error (scalar_op Sub d (OwnBin 0)) i = Some (fop Sub v k).
Proof.
  intros d k K F N i v I E FV. pose proof (C154_own_bin_partial Div d 0 k K) as (D1 & D2). pose proof (C154_own_bin_partial Sub d 0 k K) as (S1 & S2).
  specialize (D2 i v E). specialize (S2 i v E). destruct (Nat.leb_spec i 0); [lia|]. destruct (div_self k F N) as (DF & DN). destruct (sub_self k F) as (SF & SN).
  split; [eexists; split; [exact D2|]; apply div_one; auto|]. split; [eexists; split; [exact S2|]; apply sub_zero; auto|]. split; [apply (proj2 D1); auto|apply (proj2 S1); auto].
Qed.
Print Assumptions C154_refuted_normalise.
(* with the last bin the result is right *)
Theorem C154_last_bin : forall o d k, nth_error d (List.length d - 1) = Some k -> per_bin (fun v => fop o v k) d (scalar_assign o d (OwnBin (List.length d - 1))).
Proof.
  intros o d k K. split; [apply scalar_length|]. intros i v E. rewrite (proj2 (C154_own_bin_partial o d _ k K) i v E). assert (i < List.length d)%nat by (apply nth_error_Some; congruence). destruct (Nat.leb_spec i (List.length d - 1)); [auto|lia].
Qed.
(* the braces {a, b, ...}: as many numbers as bins make that spectrum, one number fills it *)
Theorem C154_braces_partial : forall N l, (N <> 1)%nat -> (List.length l = N -> init_list N l = map Some l) /\ (forall x, l = [x] -> init_list N l = repeat (Some x) N).
Proof.
  intros N l H. split.
  - intros L. unfold init_list. destruct (Nat.eqb_spec (List.length l) 1); [lia|]. rewrite Nat.min_l by lia. rewrite firstn_all, L, Nat.sub_diag. cbn. apply app_nil_r.
  - intros x ->. reflexivity.
Qed.
(* fewer numbers leave the other bins unwritten, more are dropped without a word *)
Theorem C154_refuted_braces : forall N l, (1 < N)%nat ->
  (List.length l <> 1%nat -> forall i, (List.length l <= i < N)%nat -> nth_error (init_list N l) i = Some None) /\ (List.length l = N -> forall m, init_list N (l ++ m) = init_list N l).
Proof.
  intros N l H. unfold init_list. split.
  - intros L i I. destruct (Nat.eqb_spec (List.length l) 1); [lia|]. rewrite Nat.min_l by lia. rewrite firstn_all, nth_error_app2 by (rewrite map_length; lia). rewrite map_length. apply nth_error_repeat. lia.
  - intros L m. rewrite app_length. destruct (Nat.eqb_spec (List.length l + List.length m) 1); [lia|]. destruct (Nat.eqb_spec (List.length l) 1); [lia|]. rewrite !Nat.min_r by lia. rewrite firstn_app. replace (N - List.length l)%nat with 0%nat by lia. cbn [firstn]. rewrite app_nil_r. auto.
Qed.
Print Assumptions C154_refuted_braces.

(** ** Python *)
Lemma wide_round (x : F32) : round radix2 (SpecFloat.fexp 53 1024) ZnearestE (B2R x) = B2R x.
Proof.
  apply round_generic; [apply valid_rnd_N|]. apply generic_inclusion_mag with (fexp1 := SpecFloat.fexp 24 128); [|apply generic_format_B2R].
  intros _. unfold SpecFloat.fexp, SpecFloat.emin. lia.
Qed.
Lemma finite_strict {p e} (x : binary_float p e) : is_finite x = true -> B2R x <> 0%R -> is_finite_strict x = true.
Proof. destruct x as [s|s| |s m q B]; cbn; intros F H; try discriminate; auto; try (exfalso; apply H; reflexivity). Qed.
Lemma to_float_to_double x : to_float (to_double x) = x.
Proof.
  destruct x as [s|s| |s m e B]; try reflexivity. set (x := B754_finite s m e B : F32).
  assert (N : B2R x <> 0%R). { unfold x. cbn. intros H. apply eq_0_F2R in H. destruct s; discriminate. }
  assert (D : B2R (to_double x) = B2R x /\ is_finite (to_double x) = true).
  { pose proof (binary_normalize_correct 53 1024 prec53 emax1024 mode_NE (cond_Zopp s (Zpos m)) e s) as H. change (F2R (Float radix2 (cond_Zopp s (Zpos m)) e)) with (B2R x) in H.
    cbn [round_mode] in H. rewrite wide_round in H. rewrite Rlt_bool_true in H by (eapply Rlt_trans; [apply (abs_B2R_lt_emax 24 128 x)|apply bpow_lt; lia]). destruct H as (A & C & _). split; auto. }
  destruct D as (D1 & D2). rewrite <- D1 in N. pose proof (finite_strict _ D2 N) as S. destruct (to_double x) as [s'|s'| |s' m' e' B']; try discriminate.
  pose proof (binary_normalize_correct 24 128 prec24 emax128 mode_NE (cond_Zopp s' (Zpos m')) e' s') as H. change (F2R (Float radix2 (cond_Zopp s' (Zpos m')) e')) with (B2R (B754_finite s' m' e' B' : F64)) in H.
  cbn [round_mode] in H. rewrite D1 in H. rewrite round_num, small_num in H. destruct H as (A & C & _). cbn [to_float]. apply B2R_inj; auto. apply finite_strict; auto. rewrite A. rewrite <- D1. auto.
Qed.
(* a list makes a spectrum exactly when it has as many numbers as there are bins; to_list gives the bins; both ways nothing is lost that a bin can hold *)
Theorem C154_list : forall N l, (List.length l = N -> exists d, py_list N l = Val d /\ List.length d = N /\ forall i x, nth_error l i = Some x -> nth_error d i = Some (to_float x)) /\
  (List.length l <> N -> py_list N l = Raise ValueError) /\ (forall d, List.length d = N -> py_list N (py_to_list d) = Val d).
Proof.
  intros N l. unfold py_list. split; [|split].
  - intros E. destruct (Nat.eqb_spec (List.length l) N); [|contradiction]. eexists. split; [reflexivity|]. split; [rewrite map_length; auto|]. intros i x I. rewrite nth_error_map, I. auto.
  - intros E. destruct (Nat.eqb_spec (List.length l) N); [contradiction|auto].
  - intros d E. unfold py_to_list. rewrite map_length. destruct (Nat.eqb_spec (List.length d) N); [|contradiction]. rewrite map_map. f_equal. rewrite <- (map_id d) at 2. apply map_ext, to_float_to_double.
Qed.
Print Assumptions C154_list.
(* self[i]: the bin's value, IndexError past the end; self[i] = v changes that bin only *)
Theorem C154_index : forall d i, (Z.of_nat (List.length d) < 2 ^ 64)%Z ->
  (forall v, (0 <= i)%Z -> nth_error d (Z.to_nat i) = Some v -> py_get d i = Val (to_double v)) /\
  (Z.of_nat (List.length d) <= i < 2 ^ 64 -> py_get d i = Raise IndexError /\ forall x, py_set d i x = Raise IndexError)%Z /\
  (forall x v, (0 <= i)%Z -> nth_error d (Z.to_nat i) = Some v -> exists d', py_set d i x = Val d' /\ List.length d' = List.length d /\ nth_error d' (Z.to_nat i) = Some (to_float x) /\ forall j, j <> Z.to_nat i -> nth_error d' j = nth_error d j).
Proof.
  intros d i B. assert (X : forall v, (0 <= i)%Z -> nth_error d (Z.to_nat i) = Some v -> (0 <=? i)%Z && (i <? 2 ^ 64)%Z = true /\ (Z.of_nat (List.length d) <=? i)%Z = false /\ (Z.to_nat i < List.length d)%nat).
  { intros v P E. assert (L : (Z.to_nat i < List.length d)%nat) by (apply nth_error_Some; congruence). split; [apply andb_true_iff; split; [apply Z.leb_le|apply Z.ltb_lt]; lia|]. split; auto. apply Z.leb_gt. lia. }
  split; [|split].
  - intros v P E. destruct (X v P E) as (A & C & _). unfold py_get. rewrite A, C, (nth_of _ _ _ E). auto.
  - intros I. unfold py_get, py_set. replace ((0 <=? i)%Z && (i <? 2 ^ 64)%Z) with true by (symmetry; apply andb_true_iff; split; [apply Z.leb_le|apply Z.ltb_lt]; lia). destruct (Z.leb_spec (Z.of_nat (List.length d)) i); [auto|lia].
  - intros x v P E. destruct (X v P E) as (A & C & L). unfold py_set. rewrite A, C. eexists. split; [reflexivity|]. split; [apply write_length|]. split.
    + rewrite write_nth by auto. rewrite Nat.eqb_refl. auto.
    + intros j N. rewrite write_nth by auto. destruct (Nat.eqb_spec j (Z.to_nat i)); [contradiction|auto].
Qed.
Print Assumptions C154_index.
(* full statement: Python's negative indices count from the end. Refuted: they are no index at all *)
Theorem C154_refuted_negative_index : forall d i x, (i < 0)%Z -> py_get d i = Raise TypeError /\ py_set d i x = Raise TypeError.
Proof. intros d i x H. unfold py_get, py_set. destruct (Z.leb_spec 0 i); [lia|]. auto. Qed.
(* a for loop meets the bins in order, and stops *)
Theorem C154_iterate : forall d l, (Z.of_nat (List.length d) < 2 ^ 64)%Z -> (iterates d 0 l <-> l = py_to_list d).
Proof.
  intros d l B. assert (G : forall n i l, (n + i)%nat = List.length d -> (iterates d (Z.of_nat i) l <-> l = map to_double (skipn i d))).
  { induction n as [|n IH]; intros i l' E.
    - rewrite skipn_all2 by lia. pose proof (proj1 (proj2 (C154_index d (Z.of_nat i) B)) ltac:(lia)) as (Q & _). cbn. split; [|intros ->; constructor; auto]. intros H. inversion H; subst; auto. congruence.
    - destruct (nth_error d i) as [v|] eqn:V; [|apply nth_error_None in V; lia]. assert (Q : py_get d (Z.of_nat i) = Val (to_double v)) by (apply C154_index; auto; [lia|]; rewrite Nat2Z.id; auto).
      assert (SK : skipn i d = v :: skipn (S i) d). { clear -V. revert d V. induction i; intros [|y d] V; cbn in *; try discriminate; [congruence|]. rewrite (IHi d V). destruct d; reflexivity. }
      rewrite SK. cbn [map]. replace (Z.of_nat i + 1)%Z with (Z.of_nat (S i)) in * by lia. split.
      + intros H. inversion H; subst; [congruence|]. rewrite Q in H0. injection H0 as <-. f_equal. replace (Z.of_nat i + 1)%Z with (Z.of_nat (S i)) in H1 by lia. apply IH in H1; [auto|lia].
      + intros ->. econstructor; [exact Q|]. replace (Z.of_nat i + 1)%Z with (Z.of_nat (S i)) by lia. apply IH; [lia|auto]. }
  apply (G (List.length d) 0%nat l). lia.
Qed.
Print Assumptions C154_iterate.
(* operators: bin by bin, with a spectrum or a number on the right, and number * spectrum *)
Theorem C154_python_arith_partial : forall o d x t, List.length t = List.length d ->
  (exists r, py_op o d (PBins t) = Val r /\ per_bins (fop o) d t r) /\ (exists r, py_op o d (PNum x) = Val r /\ per_bin (fun v => fop o v (to_float x)) d r) /\
  (exists r, py_rop Mul x d = Val r /\ per_bin (fun v => fop Mul v (to_float x)) d r) /\ py_op o d POther = Raise TypeError.
Proof.
  intros o d x t L. split; [eexists; split; [reflexivity|]; apply C154_spectrum; auto|]. split; [eexists; split; [reflexivity|]; apply C154_number|]. split; [eexists; split; [reflexivity|]; apply C154_number|auto].
Qed.
(* full statement: as in C++, a number may stand on the left of every operator. Refuted for +, - and / *)
Theorem C154_refuted_left : forall o x d, o <> Mul -> py_rop o x d = Raise TypeError.
Proof. intros [| | |] x d H; auto; contradiction. Qed.
(* == is equality of all bins as numbers, when none is NaN *)
Theorem C154_equal : forall d t, (forall v, In v d -> finite v) -> (forall v, In v t -> finite v) -> (py_eq d (PBins t) = true <-> map num d = map num t) /\ py_eq d POther = false.
Proof.
  intros d t D T. split; auto. cbn [py_eq]. revert t D T. induction d as [|v d IH]; intros [|w t] D T; cbn [bins_eq map]; try (split; [discriminate|discriminate]); [tauto|].
  rewrite andb_true_iff, IH by (intros; cbn in *; auto). pose proof (Beqb_correct 24 128 v w (D v (or_introl eq_refl)) (T w (or_introl eq_refl))) as H. unfold num. rewrite H. split.
  - intros (A & E). rewrite E. f_equal. destruct (Req_bool_spec (B2R v) (B2R w)); [auto|discriminate].
  - intros E. injection E as E1 E2. split; auto. apply Req_bool_true. auto.
Qed.
Print Assumptions C154_equal.
(* x op= r: x then holds x op r; what other variables hold changes exactly if they name x's object and r is a spectrum *)
Theorem C154_assign : forall o x r e, (forall z, (vars e z < next e)%nat) -> (forall z, List.length (objs e (vars e z)) = List.length (objs e (vars e x))) ->
  let e' := run o x r e in let value := fun (e : env) z => objs e (vars e z) in
  (match r with Var y => per_bins (fop o) (value e x) (value e y) (value e' x) | Num k => per_bin (fun v => fop o v (to_float k)) (value e x) (value e' x) end) /\
  forall z, z <> x -> value e' z = if match r with Var _ => Nat.eqb (vars e z) (vars e x) | Num _ => false end then value e' x else value e z.
Proof.
  intros o x r e LT LEN e' value. unfold e', value. destruct r as [y|k]; cbn [run vars objs].
  - rewrite Nat.eqb_refl. split.
    + destruct (Nat.eqb_spec (vars e y) (vars e x)) as [->|N]; [exact (proj2 (proj2 (C154_spectrum o _ _ eq_refl)))|exact (proj1 (C154_spectrum o _ _ (LEN y)))].
    + intros z N. destruct (Nat.eqb_spec (vars e z) (vars e x)); auto.
  - rewrite String.eqb_refl, Nat.eqb_refl. split; [apply C154_number|]. intros z N. destruct (String.eqb_spec z x); [contradiction|]. destruct (Nat.eqb_spec (vars e z) (next e)) as [E|]; auto. specialize (LT z). lia.
Qed.
Print Assumptions C154_assign.
(* so in Python x /= x[0] does divide every bin by the first *)
Theorem C154_python_normalise : forall x k e v, py_get (objs e (vars e x)) 0 = Val k -> nth_error (objs e (vars e x)) 0 = Some v -> (forall z, (vars e z < next e)%nat) ->
  let e' := run Div x (Num k) e in per_bin (fun w => fop Div w v) (objs e (vars e x)) (objs e' (vars e' x)).
Proof.
  intros x k e v G V LT e'. assert (E : to_float k = v). { unfold py_get in G. cbn [Z.leb Z.ltb andb] in G. change (0 <? 2 ^ 64)%Z with true in G. cbn [Z.compare andb] in G. destruct (Z.of_nat _ <=? 0)%Z; [discriminate|]. injection G as <-. change (Z.to_nat 0) with 0%nat. rewrite (nth_of _ _ _ V). apply to_float_to_double. }
  unfold e'. cbn [run vars objs]. rewrite String.eqb_refl, Nat.eqb_refl, E. apply C154_number.
Qed.
Print Assumptions C154_python_normalise.

(* [2, 4, 6] *)
Definition f_of (n : Z) : F32 := binary_normalize 24 128 _ _ mode_NE n 0 false.
Example C154_instance : map B2SF (scalar_assign Div [f_of 2; f_of 4; f_of 6] (OwnBin 0)) = map B2SF [f_of 1; f_of 4; f_of 6] /\
  map B2SF (scalar_op Div [f_of 2; f_of 4; f_of 6] (OwnBin 0)) = map B2SF [f_of 1; f_of 2; f_of 3] /\ iterates [f_of 2] 0 (py_to_list [f_of 2]) /\
  init_list 3 [f_of 2; f_of 4] = [Some (f_of 2); Some (f_of 4); None] /\ finite (f_of 2).
Proof.
  split; [vm_compute; reflexivity|]. split; [vm_compute; reflexivity|]. split; [apply C154_iterate; [reflexivity|auto]|]. split; [reflexivity|vm_compute; reflexivity].
Qed.
