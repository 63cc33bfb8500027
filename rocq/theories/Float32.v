(* IEEE binary32 rounding to nearest-even on the reals (Flocq), without overflow: every use bounds its values. *)
From Coq Require Import Reals ZArith Lra Lia.
From Flocq Require Import Core Relative.
Open Scope R_scope.

(* the value a float operation returns for the exact result x *)
Definition fl (x : R) : R := round radix2 (FLT_exp (-149) 24) ZnearestE x.
Definition is_float (x : R) : Prop := generic_format radix2 (FLT_exp (-149) 24) x.
#[global] Instance prec24 : Prec_gt_0 24. Proof. reflexivity. Qed.
Lemma fl_mono x y : x <= y -> fl x <= fl y.
Proof. apply round_le; auto with typeclass_instances. Qed.
Lemma fl_id x : is_float x -> fl x = x.
Proof. apply round_generic; auto with typeclass_instances. Qed.
Lemma fl_is_float x : is_float (fl x).
Proof. apply generic_format_round; auto with typeclass_instances. Qed.
Lemma float_small m e : (Z.abs m < 2 ^ 24)%Z -> (-149 <= e)%Z -> is_float (IZR m * bpow radix2 e).
Proof.
  intros M E. apply generic_format_FLT. exists (Float radix2 m e); cbn; auto.
Qed.
Lemma float_int m : (Z.abs m < 2 ^ 24)%Z -> is_float (IZR m).
Proof. intros M. replace (IZR m) with (IZR m * bpow radix2 0) by (cbn; ring). apply float_small; auto; lia. Qed.
Lemma float_frac m k x : (Z.abs m < 2 ^ 24)%Z -> (0 <= k <= 149)%Z -> x * IZR (2 ^ k) = IZR m -> is_float x.
Proof.
  intros M K E. replace x with (IZR m * bpow radix2 (- k)); [apply float_small; auto; lia|].
  rewrite <- E. replace (IZR (2 ^ k)) with (bpow radix2 k) by (rewrite <- IZR_Zpower by lia; reflexivity).
  rewrite Rmult_assoc, <- bpow_plus. replace (k + - k)%Z with 0%Z by lia. cbn; ring.
Qed.
Lemma fl_0 : fl 0 = 0.
Proof. apply round_0; auto with typeclass_instances. Qed.
Lemma fl_1 : fl 1 = 1.
Proof. apply fl_id. apply (float_int 1). lia. Qed.
(* relative error on the normal range *)
Lemma fl_rel x : / 2 ^ 126 <= Rabs x -> Rabs (fl x - x) <= / 2 ^ 24 * Rabs x.
Proof.
  intros H. pose proof (relative_error_N_FLT radix2 (-149) 24 ltac:(lia) (fun x => negb (Z.even x)) x) as E.
  replace (/ 2 ^ 24) with (/ 2 * bpow radix2 (-24 + 1)) by (cbn; lra). apply E. cbn. replace (/ IZR _) with (/ 2 ^ 126) by (f_equal; cbn; lra). exact H.
Qed.
(* absolute error below 1 *)
Lemma fl_close x b : Rabs x <= b -> / 2 ^ 126 <= b -> Rabs (fl x - x) <= / 2 ^ 23 * b.
Proof.
  intros H B. destruct (Rle_or_lt (/ 2 ^ 126) (Rabs x)) as [L|L].
  - eapply Rle_trans; [apply fl_rel; auto|]. assert (/ 2 ^ 24 <= / 2 ^ 23) by lra. assert (0 <= / 2 ^ 24) by lra. pose proof (Rabs_pos x). nra.
  - eapply Rle_trans; [apply (error_le_half_ulp radix2 (FLT_exp (-149) 24) (fun x => negb (Z.even x)) x)|].
    assert (U : ulp radix2 (FLT_exp (-149) 24) x <= bpow radix2 (-149)).
    { rewrite <- (ulp_FLT_small radix2 (-149) 24 x); [lra|]. cbn in *. replace (/ IZR _) with (/ 2 ^ 126 * 2) by (cbn; lra). lra. }
    assert (bpow radix2 (-149) = / 2 ^ 23 * / 2 ^ 126) as EQ by (cbn; lra). rewrite EQ in U. assert (0 < / 2 ^ 23) by lra. assert (0 < / 2 ^ 126) by lra. nra.
Qed.
