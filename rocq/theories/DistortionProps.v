(* Theorems about lens distortion: properties C31 and C32. *)
From Verif Require Import Vec3 DistortionModel DistortionSpec DistortionProofs.

(* C31, first half: zero coefficients leave every point unchanged in both directions, whatever the
   iteration limit and the tolerance. *)
Theorem C31_zero_coefficients_are_identity : forall p n tol_sq,
  distort (brown_delta zero_brown) p = p /\ undistort (brown_delta zero_brown) n tol_sq p = p
  /\ distort (owen_delta zero_owen) p = p /\ undistort (owen_delta zero_owen) n tol_sq p = p.
Proof.
  intros p n tol_sq.
  assert (Hb : forall q, brown_delta zero_brown q = (0, 0))
    by (intros q; unfold brown_delta, zero_brown, padd, pscale; cbn [bk1 bk2 bk3 bp1 bp2 fst snd]; f_equal; ring).
  assert (Ho : forall q, owen_delta zero_owen q = (0, 0))
    by (intros q; unfold owen_delta, zero_owen, padd, pscale; cbn [oe1 oe2 oe3 oe4 oe5 oe6 fst snd]; f_equal; ring).
  repeat split; try (apply undistort_id; auto); unfold distort; rewrite ?Hb, ?Ho; apply pix_eq; unfold padd; cbn [fst snd]; ring.
Qed.
Print Assumptions C31_zero_coefficients_are_identity.

(* C31, second half, for every coefficient set: on the disk of radius rho on which the coefficients
   contract (strength < 1) every point not too far out has exactly one preimage and undistort finds
   it with a geometric error bound. *)
Theorem C31_brown_undistort_inverts : forall c rho n tol,
  0 <= rho -> 0 <= tol -> brown_strength c rho < 1 ->
  inverts (distort (brown_delta c)) (undistort (brown_delta c) n (set_tolerance tol)) n tol rho (brown_strength c rho).
Proof.
  intros c rho n tol Hr Ht HL. apply inverts_lip; auto.
  - apply brown_lip; auto.
  - apply brown_delta_0.
  - split; auto. apply strength_nonneg_b; auto.
Qed.
Print Assumptions C31_brown_undistort_inverts.

Theorem C31_owen_undistort_inverts : forall c rho n tol,
  0 <= rho -> 0 <= tol -> owen_strength c rho < 1 ->
  inverts (distort (owen_delta c)) (undistort (owen_delta c) n (set_tolerance tol)) n tol rho (owen_strength c rho).
Proof.
  intros c rho n tol Hr Ht HL. apply inverts_lip; auto.
  - apply owen_lip; auto.
  - apply owen_delta_0.
  - split; auto. apply strength_nonneg_o; auto.
Qed.
Print Assumptions C31_owen_undistort_inverts.

(* The round trip as a user writes it: undistort (distort u) is u up to the error bound. *)
Theorem C31_brown_round_trip : forall c rho n tol u,
  0 <= rho -> 0 <= tol -> brown_strength c rho < 1 -> plen u <= rho ->
  plen (distort (brown_delta c) u) <= (1 - brown_strength c rho) * rho ->
  pdist (undistort (brown_delta c) n (set_tolerance tol) (distort (brown_delta c) u)) u
    <= Rmax (brown_strength c rho ^ n * pdist (distort (brown_delta c) u) u)
            (brown_strength c rho / (1 - brown_strength c rho) * tol).
Proof.
  intros c rho n tol u Hr Ht HL Hu Hd.
  destruct (C31_brown_undistort_inverts c rho n tol Hr Ht HL _ Hd) as (v & Hv & Ev & Uq & B).
  rewrite (Uq u Hu eq_refl) at 2 4. exact B.
Qed.
Print Assumptions C31_brown_round_trip.

(* the Brown model is the textbook one *)
Theorem C31_brown_is_textbook : forall c p,
  distort (brown_delta c) p = brown_textbook (bk1 c) (bk2 c) (bk3 c) (bp1 c) (bp2 c) p.
Proof.
  intros c [x y]. unfold distort, brown_delta, brown_textbook, padd, pscale. cbn [fst snd].
  rewrite plen_pow2, plen_pow4, plen_pow6. cbn [fst snd]. f_equal; ring.
Qed.
Print Assumptions C31_brown_is_textbook.

(* a non-trivial instance: a lens with barrel, pincushion and decentring terms on the unit disk *)
Example C31_instance :
  let c := {| bk1 := - / 20; bk2 := / 50; bk3 := 0; bp1 := / 200; bp2 := - / 300 |} in
  brown_strength c 1 = 3 / 10 /\ brown_strength c 1 < 1
  /\ distort (brown_delta c) (/ 2, 0) <> (/ 2, 0) /\ plen (/ 2, 0) <= (1 - brown_strength c 1) * 1.
Proof.
  intros c. assert (E : brown_strength c 1 = 3 / 10).
  { unfold brown_strength, c. cbn [bk1 bk2 bk3 bp1 bp2]. rewrite !Rabs_Ropp, Rabs_R0, !Rabs_pos_eq by lra. field. }
  rewrite E. split; [reflexivity|]. split; [lra|]. split.
  - unfold distort, brown_delta, padd, pscale, c. cbn. intros F. inversion F. lra.
  - apply plen_le; cbn [fst snd]; lra.
Qed.
Example C31_owen_instance :
  let c := {| oe1 := / 10; oe2 := - / 20; oe3 := 0; oe4 := / 50; oe5 := / 100; oe6 := 0 |} in
  owen_strength c 1 < 1.
Proof. intros c. unfold owen_strength, c. cbn [oe1 oe2 oe3 oe4 oe5 oe6]. rewrite !Rabs_Ropp, !Rabs_R0, !Rabs_pos_eq by lra. lra. Qed.

(* ---- C32 ---- *)
(* The claim is false of the code: with zero coefficients every point except the centre is moved to
   twice its distance, because the radial factor already contains the leading 1. *)
Theorem C32_refuted_zero_coefficients_double : forall p,
  distort (opencv_delta zero_opencv) p = pscale 2 p
  /\ (p <> (0, 0) -> distort (opencv_delta zero_opencv) p <> p).
Proof.
  intros p. assert (E : distort (opencv_delta zero_opencv) p = pscale 2 p).
  { unfold distort. rewrite opencv_delta_zero. apply pix_eq; unfold padd, pscale; cbn [fst snd]; ring. }
  split; auto. intros Hp E2. rewrite E in E2. apply Hp. apply (f_equal fst) in E2 as A. apply (f_equal snd) in E2 as B.
  unfold pscale in *. cbn [fst snd] in *. apply pix_eq; cbn [fst snd]; lra.
Qed.
Print Assumptions C32_refuted_zero_coefficients_double.

(* The undistort iteration does not converge: it alternates between the input and the centre, so the
   result depends on the parity of the iteration limit. *)
Theorem C32_refuted_undistort_alternates : forall tol n p,
  0 <= tol -> tol <= plen p ->
  undistort (opencv_delta zero_opencv) n (set_tolerance tol) p = if Nat.even n then p else (0, 0).
Proof. intros tol n p Ht Hp. apply (opencv_alternates tol p Ht Hp n). Qed.
Print Assumptions C32_refuted_undistort_alternates.

(* With the default limit of 20 iterations undistort (distort p) is 2p. *)
Theorem C32_refuted_round_trip : forall p, / 1000000 <= plen p ->
  undistort (opencv_delta zero_opencv) default_max_iterations default_tol_sq (distort (opencv_delta zero_opencv) p) = pscale 2 p.
Proof.
  intros p Hp. rewrite (proj1 (C32_refuted_zero_coefficients_double p)).
  replace default_tol_sq with (set_tolerance (/ 1000000)) by (unfold default_tol_sq, set_tolerance; lra).
  rewrite C32_refuted_undistort_alternates; [reflexivity | lra |].
  rewrite plen_scale, Rabs_pos_eq by lra. pose proof (plen_pos p). lra.
Qed.
Print Assumptions C32_refuted_round_trip.

(* What does hold: whenever the denominator is not tiny, distort adds the input once more to OpenCV's
   documented result, for every coefficient set. *)
Theorem C32_opencv_offset_by_input_partial : forall c p,
  k_min_denominator <= Rabs (1 + ck4 c * plen p ^ 2 + ck5 c * plen p ^ 4 + ck6 c * plen p ^ 6) ->
  distort (opencv_delta c) p = padd p (opencv_textbook c p).
Proof.
  intros c p H. unfold distort. f_equal. unfold opencv_delta, opencv_textbook. cbv zeta. destruct p as [x y].
  cbn [fst snd]. rewrite plen_pow2, plen_pow4, plen_pow6 in *. cbn [fst snd] in *.
  unfold clamp_denominator. match goal with |- context [Rltb ?a ?b] => replace (Rltb a b) with false by (symmetry; apply Rltb_false; exact H) end.
  unfold padd, pscale. cbn [fst snd]. f_equal; unfold Rdiv; ring.
Qed.
Print Assumptions C32_opencv_offset_by_input_partial.

(* ... and the division is always by a number of magnitude at least 1e-10. *)
Theorem C32_denominator_never_zero : forall d, clamp_denominator d <> 0 /\ / 10000000000 <= Rabs (clamp_denominator d).
Proof. exact clamp_nonzero. Qed.
Print Assumptions C32_denominator_never_zero.
Example C32_instance : / 1000000 <= plen (1, 0).
Proof. unfold plen. cbn. replace (1 * 1 + 0 * 0) with (1 * 1) by ring. rewrite sqrt_square; lra. Qed.
