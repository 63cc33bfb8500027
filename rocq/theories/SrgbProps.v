(** * C104: sRGB encoding and decoding. *)
From Verif Require Import Common Vec3 SrgbModel.
Open Scope R_scope.

(* raising to 5/12 and 12/5 through whole powers *)
Lemma rpower_nat x n : 0 < x -> Rpower x (INR n) = x ^ n. Proof. intros; apply Rpower_pow; auto. Qed.
Lemma rp_pos x y : 0 < Rpower x y. Proof. apply exp_pos. Qed.
Lemma rp_pow5 x : 0 < x -> Rpower x (24 / 10) ^ 5 = x ^ 12.
Proof. intros H. rewrite <- (rpower_nat _ 5) by apply rp_pos. rewrite Rpower_mult. replace (24 / 10 * INR 5) with (INR 12) by (cbn; field). apply rpower_nat; auto. Qed.
Lemma rp_pow12 x : 0 < x -> Rpower x (1 / (24 / 10)) ^ 12 = x ^ 5.
Proof. intros H. rewrite <- (rpower_nat _ 12) by apply rp_pos. rewrite Rpower_mult. replace (1 / (24 / 10) * INR 12) with (INR 5) by (cbn; field). apply rpower_nat; auto. Qed.
Lemma pow_lt_inv a b n : 0 <= b -> a ^ n < b ^ n -> a < b.
Proof. intros B H. destruct (Rlt_dec a b); auto. exfalso. assert (b ^ n <= a ^ n) by (apply pow_incr; lra). lra. Qed.
Lemma rp_incr x y z : 0 < x < y -> 0 < z -> Rpower x z < Rpower y z.
Proof. intros (X & XY) Z. unfold Rpower. apply exp_increasing, Rmult_lt_compat_l; auto. apply ln_increasing; auto. Qed.
Lemma rp_inv1 x : 0 < x -> Rpower (Rpower x (24 / 10)) (1 / (24 / 10)) = x.
Proof. intros H. rewrite Rpower_mult. replace (24 / 10 * (1 / (24 / 10))) with 1 by field. apply Rpower_1; auto. Qed.
Lemma rp_inv2 x : 0 < x -> Rpower (Rpower x (1 / (24 / 10))) (24 / 10) = x.
Proof. intros H. rewrite Rpower_mult. replace (1 / (24 / 10) * (24 / 10)) with 1 by field. apply Rpower_1; auto. Qed.

(* the value of the power branch of the decoder where it starts *)
Definition join : R := Rpower ((4045 / 100000 + 55 / 1000) / (1055 / 1000)) (24 / 10).
Lemma join_bounds : 4045 / 100000 / (1292 / 100) < join < 3130808 / 1000000000.
Proof.
  unfold join. set (b := (4045 / 100000 + 55 / 1000) / (1055 / 1000)). assert (B: b = 9545 / 105500) by (unfold b; field).
  assert (B0: 0 < b) by (rewrite B; lra). pose proof (rp_pow5 b B0) as E. pose proof (rp_pos b (24 / 10)) as P. set (j := Rpower b (24 / 10)) in *. clearbody j.
  split; apply (pow_lt_inv _ _ 5); try lra; rewrite ?E, B; cbn [pow]; lra.
Qed.

(** decoding is strictly increasing and maps [0,1] onto itself with fixed ends *)
Theorem C104_decode_increasing : forall s t, s < t -> srgb_to_linear s < srgb_to_linear t.
Proof.
  intros s t H. unfold srgb_to_linear. destruct (Rleb s (4045 / 100000)) eqn:E1; destruct (Rleb t (4045 / 100000)) eqn:E2; rb; try lra.
  - pose proof join_bounds as (J & _). assert (join < Rpower ((t + 55 / 1000) / (1055 / 1000)) (24 / 10)) by (unfold join; apply rp_incr; lra). lra.
  - apply rp_incr; lra.
Qed.
Print Assumptions C104_decode_increasing.
Theorem C104_ends : srgb_to_linear 0 = 0 /\ srgb_to_linear 1 = 1 /\ linear_to_srgb 0 = 0 /\ linear_to_srgb 1 = 1.
Proof.
  unfold srgb_to_linear, linear_to_srgb. repeat split; match goal with |- context [Rleb ?a ?b] => destruct (Rleb a b) eqn:E; rb end; try lra.
  - replace ((1 + 55 / 1000) / (1055 / 1000)) with 1 by field. unfold Rpower. rewrite ln_1, Rmult_0_r. apply exp_0.
  - unfold Rpower. rewrite ln_1, Rmult_0_r, exp_0. lra.
Qed.
(** encoding what was decoded gives it back for every value outside (0.040449936, 0.04045], so for every 8-bit and every 16-bit value *)
Theorem C104_encode_decode : forall s, s <= 40449936 / 1000000000 \/ 4045 / 100000 < s -> linear_to_srgb (srgb_to_linear s) = s.
Proof.
  intros s [H|H]; unfold srgb_to_linear.
  - rewrite (proj2 (Rleb_true _ _)) by lra. unfold linear_to_srgb. rewrite (proj2 (Rleb_true _ _)) by lra. field.
  - rewrite (proj2 (Rleb_false _ _)) by lra. unfold linear_to_srgb.
    assert (J: join < Rpower ((s + 55 / 1000) / (1055 / 1000)) (24 / 10)) by (unfold join; apply rp_incr; lra). pose proof join_bounds as (J' & _).
    rewrite (proj2 (Rleb_false _ _)) by lra. rewrite rp_inv1 by lra. field.
Qed.
Print Assumptions C104_encode_decode.
Theorem C104_integer_codes : forall k, (0 <= k)%Z -> linear_to_srgb (srgb_to_linear (IZR k / 255)) = IZR k / 255 /\ linear_to_srgb (srgb_to_linear (IZR k / 65535)) = IZR k / 65535.
Proof.
  intros k K. split; apply C104_encode_decode.
  - destruct (Z_le_gt_dec k 10) as [L|G]; [left; apply IZR_le in L; lra|right; assert (11 <= k)%Z by lia; apply IZR_le in H; lra].
  - destruct (Z_le_gt_dec k 2650) as [L|G]; [left; apply IZR_le in L; lra|right; assert (2651 <= k)%Z by lia; apply IZR_le in H; lra].
Qed.
(** and decoding what was encoded, outside a gap of 8e-9 *)
Theorem C104_decode_encode : forall l, l <= 31308 / 10000000 \/ 3130808 / 1000000000 <= l -> srgb_to_linear (linear_to_srgb l) = l.
Proof.
  intros l [H|H]; unfold linear_to_srgb.
  - rewrite (proj2 (Rleb_true _ _)) by lra. unfold srgb_to_linear. rewrite (proj2 (Rleb_true _ _)) by lra. field.
  - rewrite (proj2 (Rleb_false _ _)) by lra. unfold srgb_to_linear. pose proof join_bounds as (J' & J).
    assert (Q: (4045 / 100000 + 55 / 1000) / (1055 / 1000) < Rpower l (1 / (24 / 10))).
    { rewrite <- (rp_inv1 ((4045 / 100000 + 55 / 1000) / (1055 / 1000))) by lra. apply rp_incr; [|lra]. fold join. split; [apply rp_pos|lra]. }
    rewrite (proj2 (Rleb_false _ _)) by lra. replace ((1055 / 1000 * Rpower l (1 / (24 / 10)) - 55 / 1000 + 55 / 1000) / (1055 / 1000)) with (Rpower l (1 / (24 / 10))) by field.
    apply rp_inv2. lra.
Qed.
Print Assumptions C104_decode_encode.
(* full statement: the two functions are inverse and order-preserving everywhere. Refuted in the gap: the published constants do not meet, so
   brighter linear values can get darker codes, and two different codes decode-encode to values that swap *)
Theorem C104_encode_not_monotone_refuted : exists a b, 0 < a < b /\ b < 1 /\ linear_to_srgb b < linear_to_srgb a.
Proof.
  exists (31308 / 10000000), (313080005 / 100000000000). split; [lra|]. split; [lra|]. unfold linear_to_srgb. rewrite (proj2 (Rleb_true (31308 / 10000000) _)) by lra. rewrite (proj2 (Rleb_false _ _)) by lra.
  assert (E: Rpower (313080005 / 100000000000) (1 / (24 / 10)) < (31308 / 10000000 * (1292 / 100) + 55 / 1000) / (1055 / 1000)).
  { apply (pow_lt_inv _ _ 12); [lra|]. rewrite rp_pow12 by lra. cbn [pow]. lra. } lra.
Qed.
Theorem C104_gap_refuted : exists s, 0 < s < 1 /\ linear_to_srgb (srgb_to_linear s) <> s.
Proof.
  exists (4045 / 100000). split; [lra|]. unfold srgb_to_linear. rewrite (proj2 (Rleb_true _ _)) by lra. unfold linear_to_srgb. rewrite (proj2 (Rleb_false _ _)) by lra.
  intros H. assert (E: Rpower (4045 / 100000 / (1292 / 100)) (1 / (24 / 10)) = 9545 / 105500) by lra.
  assert (P: Rpower (4045 / 100000 / (1292 / 100)) (1 / (24 / 10)) ^ 12 = (4045 / 100000 / (1292 / 100)) ^ 5) by (apply rp_pow12; lra). rewrite E in P. cbn [pow] in P. lra.
Qed.
(* whole images *)
Theorem C104_images : forall img, (forall px c, In px img -> In c px -> c <= 40449936 / 1000000000 \/ 4045 / 100000 < c) -> image_to_srgb (image_to_linear img) = img.
Proof.
  intros img H. unfold image_to_srgb, image_to_linear. rewrite map_map. rewrite <- (map_id img) at 2. apply map_ext_in. intros px PX. rewrite map_map. rewrite <- (map_id px) at 2. apply map_ext_in. intros c C. apply C104_encode_decode. eauto.
Qed.
Example C104_case : linear_to_srgb (srgb_to_linear (128 / 255)) = 128 / 255 /\ linear_to_srgb (srgb_to_linear (1 / 255)) = 1 / 255.
Proof. split; [apply (C104_integer_codes 128)|apply (C104_integer_codes 1)]; lia. Qed.
