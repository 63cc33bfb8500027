(* Proofs about the binary32 bit patterns used by the self-intersection offset. *)
From Coq Require Import Reals ZArith Lra Lia.
From Flocq Require Import Core.
From Verif Require Import Common Float32 Vec3 PixelModel OffsetModel.
Open Scope R_scope.

Lemma bp_pos e : 0 < bpow radix2 e. Proof. apply bpow_gt_0. Qed.
Lemma mag_step m : (0 <= m)%Z -> mag (m + 1) = mag m + bpow radix2 (Z.max (m / 2 ^ 23) 1 - 150).
Proof.
  intros H. unfold mag. pose proof (Z.div_mod m (2 ^ 23) ltac:(lia)) as DM. pose proof (Z.mod_pos_bound m (2 ^ 23) ltac:(lia)) as MB.
  set (e := (m / 2 ^ 23)%Z) in *. set (f := (m mod 2 ^ 23)%Z) in *.
  destruct (Z.ltb_spec m (2 ^ 23)).
  - assert (E0: e = 0%Z) by (unfold e; apply Z.div_small; lia). rewrite E0. replace (Z.max 0 1 - 150)%Z with (-149)%Z by lia.
    destruct (Z.ltb_spec (m + 1) (2 ^ 23)).
    + rewrite plus_IZR. ring.
    + assert (m + 1 = 2 ^ 23)%Z as -> by lia. rewrite Z.mod_same, Z.div_same by lia. replace (1 - 150)%Z with (-149)%Z by lia.
      replace m with (2 ^ 23 - 1)%Z by lia. rewrite minus_IZR. rewrite Z.add_0_r. ring.
  - destruct (Z.ltb_spec (m + 1) (2 ^ 23)); [lia|]. assert (1 <= e)%Z by (unfold e; apply Z.div_le_lower_bound; lia). rewrite Z.max_l by lia.
    destruct (Z.eq_dec f (2 ^ 23 - 1)) as [F|F].
    + assert (M1: (m + 1 = 2 ^ 23 * (e + 1))%Z) by lia. rewrite M1. rewrite (Z.mul_comm (2 ^ 23)), Z.mod_mul, Z.div_mul by lia. rewrite F.
      replace (e + 1 - 150)%Z with (e - 150 + 1)%Z by lia. rewrite bpow_plus. change (bpow radix2 1) with 2. rewrite Z.add_0_r. rewrite !plus_IZR, minus_IZR. ring.
    + assert (D: ((m + 1) / 2 ^ 23 = e)%Z) by (symmetry; apply (Z.div_unique _ _ _ (f + 1)); lia). assert (MO: ((m + 1) mod 2 ^ 23 = f + 1)%Z) by (symmetry; apply (Z.mod_unique _ _ e); lia).
      rewrite D, MO. rewrite !plus_IZR. ring.
Qed.
Lemma mag_diff m k : (0 <= m)%Z -> (0 <= k)%Z -> 0 <= mag (m + k) - mag m <= IZR k * bpow radix2 (Z.max ((m + k) / 2 ^ 23) 1 - 150) /\ ((0 < k)%Z -> mag m < mag (m + k)).
Proof.
  intros Hm. revert k. apply natlike_ind.
  - rewrite Z.add_0_r. split; [|lia]. pose proof (bp_pos (Z.max (m / 2 ^ 23) 1 - 150)). lra.
  - intros k Hk ((L & U) & S). replace (m + Z.succ k)%Z with ((m + k) + 1)%Z by lia. rewrite mag_step by lia.
    pose proof (bp_pos (Z.max ((m + k) / 2 ^ 23) 1 - 150)) as BP.
    assert (BL: bpow radix2 (Z.max ((m + k) / 2 ^ 23) 1 - 150) <= bpow radix2 (Z.max ((m + k + 1) / 2 ^ 23) 1 - 150)).
    { apply bpow_le. assert ((m + k) / 2 ^ 23 <= (m + k + 1) / 2 ^ 23)%Z by (apply Z.div_le_mono; lia). lia. }
    rewrite succ_IZR. split; [|intros; lra]. split; [lra|]. assert (0 <= IZR k) by (apply IZR_le; lia).
    assert (IZR k * bpow radix2 (Z.max ((m + k) / 2 ^ 23) 1 - 150) <= IZR k * bpow radix2 (Z.max ((m + k + 1) / 2 ^ 23) 1 - 150)) by (apply Rmult_le_compat_l; auto). lra.
Qed.
Lemma mag_lt a b : (0 <= a < b)%Z -> mag a < mag b.
Proof. intros H. destruct (mag_diff a (b - a) ltac:(lia) ltac:(lia)) as (_ & S). replace (a + (b - a))%Z with b in S by lia. apply S. lia. Qed.
Lemma mag_le a b : (0 <= a <= b)%Z -> mag a <= mag b.
Proof. intros H. destruct (Z.eq_dec a b) as [->|]; [lra|]. apply Rlt_le, mag_lt. lia. Qed.
Lemma mag_inv_lt a b : (0 <= a)%Z -> (0 <= b)%Z -> mag a < mag b -> (a < b)%Z.
Proof. intros A B H. destruct (Z.lt_ge_cases a b) as [|G]; auto. pose proof (mag_le b a ltac:(lia)). lra. Qed.
Lemma mag_0 : mag 0 = 0.
Proof. unfold mag. cbn. lra. Qed.
Lemma mag_pos m : (0 < m)%Z -> 0 < mag m.
Proof. intros H. rewrite <- mag_0. apply mag_lt. lia. Qed.
Lemma mag_pow e : (1 <= e)%Z -> mag (e * 2 ^ 23) = bpow radix2 (e - 127).
Proof.
  intros H. unfold mag. destruct (Z.ltb_spec (e * 2 ^ 23) (2 ^ 23)); [lia|]. rewrite Z.mod_mul, Z.div_mul by lia.
  replace (e - 127)%Z with (23 + (e - 150))%Z by lia. rewrite bpow_plus, Z.add_0_r. reflexivity.
Qed.
Lemma mag_lower m : (2 ^ 23 <= m)%Z -> bpow radix2 (m / 2 ^ 23 - 127) <= mag m.
Proof.
  intros H. assert (1 <= m / 2 ^ 23)%Z by (apply Z.div_le_lower_bound; lia). rewrite <- mag_pow by auto. apply mag_le. pose proof (Z.mul_div_le m (2 ^ 23) ltac:(lia)). lia.
Qed.
Lemma mag_is_float m : (0 <= m)%Z -> is_float (mag m).
Proof.
  intros H. unfold mag. destruct (Z.ltb_spec m (2 ^ 23)).
  - apply float_small; [rewrite Z.abs_eq by lia; lia|lia].
  - pose proof (Z.mod_pos_bound m (2 ^ 23) ltac:(lia)). assert (1 <= m / 2 ^ 23)%Z by (apply Z.div_le_lower_bound; lia). apply float_small; [rewrite Z.abs_eq by lia; lia|lia].
Qed.
Lemma opp_float x : is_float x -> is_float (- x).
Proof. apply generic_format_opp. Qed.

(* the integer offset *)
Lemma offset_int_ok n : Rabs n <= 1 -> exists k, offset_int n = Ok k /\ k = Ztrunc (fl (256 * n)) /\ (-256 <= k <= 256)%Z /\ (0 <= n -> (0 <= k)%Z) /\ (n <= 0 -> (k <= 0)%Z) /\ (1 / 256 <= n -> (1 <= k)%Z) /\ (n <= - (1 / 256) -> (k <= -1)%Z).
Proof.
  intros H. apply Rabs_le_inv in H. exists (Ztrunc (fl (256 * n))).
  assert (FI: forall z, (Z.abs z < 2 ^ 24)%Z -> fl (IZR z) = IZR z) by (intros; apply fl_id, float_int; auto).
  assert (UP: forall z, (Z.abs z < 2 ^ 24)%Z -> 256 * n <= IZR z -> (Ztrunc (fl (256 * n)) <= z)%Z).
  { intros z Hz L. rewrite <- (Ztrunc_IZR z). apply Ztrunc_le. rewrite <- (FI z Hz). apply fl_mono. auto. }
  assert (DN: forall z, (Z.abs z < 2 ^ 24)%Z -> IZR z <= 256 * n -> (z <= Ztrunc (fl (256 * n)))%Z).
  { intros z Hz L. rewrite <- (Ztrunc_IZR z) at 1. apply Ztrunc_le. rewrite <- (FI z Hz). apply fl_mono. auto. }
  assert (B: (-256 <= Ztrunc (fl (256 * n)) <= 256)%Z) by (split; [apply DN|apply UP]; try lia; lra).
  split; [|split; [reflexivity|split; [exact B|]]].
  - unfold offset_int, cast_int. cbv zeta. rewrite (proj2 (Z.leb_le _ _)), (proj2 (Z.leb_le _ _)) by lia. reflexivity.
  - split; [intros; apply DN; [lia|lra]|]. split; [intros; apply UP; [lia|lra]|]. split; [intros; apply DN; [lia|lra]|intros; apply UP; [lia|lra]].
Qed.
(* the near branch *)
Lemma near_branch x n : is_float x -> Rabs x < 1 / 32 -> Rabs n <= 1 -> let r := fl (x + fl (1 / 65536 * n)) in
  (0 <= n -> x <= r) /\ (n <= 0 -> r <= x) /\ (1 / 256 <= n -> x < r) /\ (n <= - (1 / 256) -> r < x) /\ Rabs (r - x) <= / 2 ^ 15.
Proof.
  intros FX HX HN r. apply Rabs_lt_inv in HX. apply Rabs_le_inv in HN. set (y := fl (1 / 65536 * n)) in *.
  assert (P16: forall s, s = 1 \/ s = -1 -> forall k, (0 <= k <= 149)%Z -> is_float (s / IZR (2 ^ k))).
  { intros s [->| ->] k Hk; [apply (float_frac 1 k)|apply (float_frac (-1) k)]; try lia; field; apply not_0_IZR; assert (0 < 2 ^ k)%Z by (apply Z.pow_pos_nonneg; lia); lia. }
  assert (F16: forall k s, s = 1 \/ s = -1 -> (0 <= k <= 149)%Z -> fl (s / IZR (2 ^ k)) = s / IZR (2 ^ k)) by (intros; apply fl_id, P16; auto).
  assert (YU: y <= 1 / 65536) by (pose proof (F16 16%Z 1 ltac:(auto) ltac:(lia)) as FF; change (IZR (2 ^ 16)) with 65536 in FF; rewrite <- FF; apply fl_mono; lra).
  assert (YL: -1 / 65536 <= y) by (pose proof (F16 16%Z (-1) ltac:(auto) ltac:(lia)) as FF; change (IZR (2 ^ 16)) with 65536 in FF; rewrite <- FF; apply fl_mono; lra).
  assert (Y0: 0 <= n -> 0 <= y) by (intros; rewrite <- fl_0; apply fl_mono; lra).
  assert (Y0': n <= 0 -> y <= 0) by (intros; rewrite <- fl_0; apply fl_mono; lra).
  assert (Y1: 1 / 256 <= n -> 1 / 16777216 <= y) by (intros; pose proof (F16 24%Z 1 ltac:(auto) ltac:(lia)) as FF; change (IZR (2 ^ 24)) with 16777216 in FF; rewrite <- FF; apply fl_mono; lra).
  assert (Y1': n <= - (1 / 256) -> y <= -1 / 16777216) by (intros; pose proof (F16 24%Z (-1) ltac:(auto) ltac:(lia)) as FF; change (IZR (2 ^ 24)) with 16777216 in FF; rewrite <- FF; apply fl_mono; lra).
  assert (C: Rabs (r - (x + y)) <= / 2 ^ 23 * (/ 16)) by (apply fl_close; [apply Rabs_le; lra|lra]).
  apply Rabs_le_inv in C.
  split; [intros; rewrite <- (fl_id x FX) at 1; apply fl_mono; specialize (Y0 H); lra|].
  split; [intros; rewrite <- (fl_id x FX) at 1; apply fl_mono; specialize (Y0' H); lra|].
  split; [intros H; specialize (Y1 H); lra|]. split; [intros H; specialize (Y1' H); lra|]. apply Rabs_le. lra.
Qed.
Lemma value_nonneg b : (0 <= b < 255 * 2 ^ 23)%Z -> value b = Fin (mag b).
Proof. intros H. unfold value. cbv zeta. rewrite Z.mod_small by lia. rewrite (proj2 (Z.ltb_lt _ _)) by lia. rewrite (proj2 (Z.ltb_ge _ _)) by lia. reflexivity. Qed.
Lemma value_neg m : (0 <= m < 255 * 2 ^ 23)%Z -> value (m - 2 ^ 31) = Fin (- mag m).
Proof.
  intros H. unfold value. cbv zeta. replace ((m - 2 ^ 31) mod 2 ^ 31)%Z with m by (apply (Z.mod_unique _ _ (-1)); lia).
  rewrite (proj2 (Z.ltb_lt m _)) by lia. rewrite (proj2 (Z.ltb_lt _ _)) by lia. reflexivity.
Qed.
Lemma value_inv b x : (- 2 ^ 31 <= b < 2 ^ 31)%Z -> value b = Fin x -> ((0 <= b < 255 * 2 ^ 23)%Z /\ x = mag b) \/ (exists m, (0 <= m < 255 * 2 ^ 23)%Z /\ b = (m - 2 ^ 31)%Z /\ x = - mag m).
Proof.
  intros HB H. destruct (Z.lt_ge_cases b 0) as [L|G].
  - right. exists (b + 2 ^ 31)%Z. unfold value in H. cbv zeta in H. replace (b mod 2 ^ 31)%Z with (b + 2 ^ 31)%Z in H by (apply (Z.mod_unique _ _ (-1)); lia).
    destruct (Z.ltb_spec (b + 2 ^ 31) (255 * 2 ^ 23)); [|discriminate]. rewrite (proj2 (Z.ltb_lt _ _)) in H by lia. injection H as <-. split; [lia|]. split; [lia|reflexivity].
  - left. unfold value in H. cbv zeta in H. rewrite Z.mod_small in H by lia. destruct (Z.ltb_spec b (255 * 2 ^ 23)); [|discriminate]. rewrite (proj2 (Z.ltb_ge _ _)) in H by lia. injection H as <-. split; [lia|reflexivity].
Qed.
(* a step of at most 256 patterns away from zero by at least 1/32 *)
Lemma mag_rel m k : (122 * 2 ^ 23 <= m)%Z -> (-256 <= k <= 256)%Z -> Rabs (mag (m + k) - mag m) <= mag m / 2 ^ 14.
Proof.
  intros Hm Hk. assert (E: (122 <= m / 2 ^ 23)%Z) by (apply Z.div_le_lower_bound; lia). pose proof (mag_lower m ltac:(lia)) as ML.
  assert (B8: forall e, IZR 256 * bpow radix2 (e + 1 - 150) = / 2 ^ 14 * bpow radix2 (e - 127)).
  { intros e. replace (e + 1 - 150)%Z with (-22 + (e - 127))%Z by lia. rewrite bpow_plus. replace (bpow radix2 (-22)) with (/ 4194304) by (cbn; reflexivity). lra. }
  destruct (Z.le_ge_cases 0 k) as [K|K].
  - destruct (mag_diff m k ltac:(lia) K) as ((L & U) & _). rewrite Rabs_pos_eq by auto. eapply Rle_trans; [exact U|].
    assert (D: ((m + k) / 2 ^ 23 <= m / 2 ^ 23 + 1)%Z). { replace (m / 2 ^ 23 + 1)%Z with ((m + 1 * 2 ^ 23) / 2 ^ 23)%Z by (rewrite Z.div_add by lia; lia). apply Z.div_le_mono; lia. }
    assert (bpow radix2 (Z.max ((m + k) / 2 ^ 23) 1 - 150) <= bpow radix2 (m / 2 ^ 23 + 1 - 150)) by (apply bpow_le; lia).
    assert (IZR k <= IZR 256) by (apply IZR_le; lia). assert (0 <= IZR k) by (apply IZR_le; lia).
    eapply Rle_trans; [apply Rmult_le_compat; [auto|apply Rlt_le, bp_pos|eassumption|eassumption]|]. rewrite B8. lra.
  - destruct (mag_diff (m + k) (- k) ltac:(lia) ltac:(lia)) as ((L & U) & _). replace (m + k + - k)%Z with m in * by lia. rewrite Rabs_left1 by lra.
    assert (bpow radix2 (Z.max (m / 2 ^ 23) 1 - 150) <= bpow radix2 (m / 2 ^ 23 + 1 - 150)) by (apply bpow_le; lia).
    assert (IZR (- k) <= IZR 256) by (apply IZR_le; lia). assert (0 <= IZR (- k)) by (apply IZR_le; lia).
    assert (X: IZR (- k) * bpow radix2 (Z.max (m / 2 ^ 23) 1 - 150) <= IZR 256 * bpow radix2 (m / 2 ^ 23 + 1 - 150)) by (apply Rmult_le_compat; [auto|apply Rlt_le, bp_pos|eassumption|eassumption]).
    rewrite B8 in X. lra.
Qed.
