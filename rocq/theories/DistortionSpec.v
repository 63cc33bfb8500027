(* What a user expects of the lens distortion models. *)
From Verif Require Import Vec3 DistortionModel.

(* Euclidean length and distance in the normalised image plane *)
Definition plen (p : pixel) : R := sqrt (fst p * fst p + snd p * snd p).
Definition pdist (p q : pixel) : R := plen (psub p q).

(* textbook Brown-Conrady model with r^2 = x^2 + y^2 *)
Definition brown_textbook (k1 k2 k3 p1 p2 : R) (p : pixel) : pixel :=
  let '(x, y) := p in
  let r := plen p in
  (x * (1 + k1 * r ^ 2 + k2 * r ^ 4 + k3 * r ^ 6) + (2 * p1 * x * y + p2 * (r ^ 2 + 2 * x ^ 2)),
   y * (1 + k1 * r ^ 2 + k2 * r ^ 4 + k3 * r ^ 6) + (p1 * (r ^ 2 + 2 * y ^ 2) + 2 * p2 * x * y)).

(* OpenCV's documented rational model with thin prism terms (coefficient order of OpenCV's
   documentation, with the tangential terms as huira names them) *)
Definition opencv_textbook (c : opencv_coeffs) (p : pixel) : pixel :=
  let '(x, y) := p in
  let r := plen p in
  let radial := (1 + ck1 c * r ^ 2 + ck2 c * r ^ 4 + ck3 c * r ^ 6) / (1 + ck4 c * r ^ 2 + ck5 c * r ^ 4 + ck6 c * r ^ 6) in
  (x * radial + 2 * cp1 c * x * y + cp2 c * (r ^ 2 + 2 * x ^ 2) + cs1 c * r ^ 2 + cs2 c * r ^ 4,
   y * radial + cp1 c * (r ^ 2 + 2 * y ^ 2) + 2 * cp2 c * x * y + cs3 c * r ^ 2 + cs4 c * r ^ 4).

Definition zero_brown : brown_coeffs := {| bk1 := 0; bk2 := 0; bk3 := 0; bp1 := 0; bp2 := 0 |}.
Definition zero_owen : owen_coeffs := {| oe1 := 0; oe2 := 0; oe3 := 0; oe4 := 0; oe5 := 0; oe6 := 0 |}.
Definition zero_opencv : opencv_coeffs :=
  {| ck1 := 0; ck2 := 0; ck3 := 0; ck4 := 0; ck5 := 0; ck6 := 0; cp1 := 0; cp2 := 0; cs1 := 0; cs2 := 0; cs3 := 0; cs4 := 0 |}.

(* f changes distances by at most the factor L on the disk of radius rho around the image centre *)
Definition lipschitz_on (f : pixel -> pixel) (rho L : R) : Prop :=
  forall p q, plen p <= rho -> plen q <= rho -> pdist (f p) (f q) <= L * pdist p q.

(* how strongly the coefficients bend the disk of radius rho *)
Definition brown_strength (c : brown_coeffs) (rho : R) : R :=
  3 * Rabs (bk1 c) * rho ^ 2 + 5 * Rabs (bk2 c) * rho ^ 4 + 7 * Rabs (bk3 c) * rho ^ 6
  + 6 * Rabs (bp1 c) * rho + 6 * Rabs (bp2 c) * rho.
Definition owen_strength (c : owen_coeffs) (rho : R) : R :=
  2 * Rabs (oe1 c) * rho + 3 * Rabs (oe2 c) * rho ^ 2 + 4 * Rabs (oe3 c) * rho ^ 3 + 5 * Rabs (oe4 c) * rho ^ 4
  + 2 * Rabs (oe5 c) * rho + 2 * Rabs (oe6 c) * rho.

(* The full claim about a model: every point h that is not too far out has exactly one preimage u
   in the disk, and undistort finds it up to the iteration error L^n and the tolerance error. *)
Definition inverts (dist undist : pixel -> pixel) (n : nat) (tol rho L : R) : Prop :=
  forall h, plen h <= (1 - L) * rho ->
  exists u, plen u <= rho /\ dist u = h
    /\ (forall u', plen u' <= rho -> dist u' = h -> u' = u)
    /\ pdist (undist h) u <= Rmax (L ^ n * pdist h u) (L / (1 - L) * tol).
