(* Model of the lens distortion classes, include/huira_impl/cameras/distortion/*.ipp, in exact real
   arithmetic: float/double rounding and the casts between them are not modelled. A Pixel is a pair. *)
From Verif Require Import Vec3.

Definition pixel : Type := (R * R)%type.
Definition padd (a b : pixel) : pixel := (fst a + fst b, snd a + snd b).
Definition psub (a b : pixel) : pixel := (fst a - fst b, snd a - snd b).
Definition pscale (k : R) (a : pixel) : pixel := (k * fst a, k * snd a).

(* BrownCoefficients, include/huira/cameras/distortion/brown_distortion.hpp *)
Record brown_coeffs := { bk1 : R; bk2 : R; bk3 : R; bp1 : R; bp2 : R }.

(* BrownDistortion::compute_delta_, brown_distortion.ipp:30-58 *)
Definition brown_delta (c : brown_coeffs) (p : pixel) : pixel :=
  let x := fst p in let y := snd p in
  let x2 := x * x in let y2 := y * y in
  let r2 := x2 + y2 in let r4 := r2 * r2 in let r6 := r4 * r2 in
  let radial_factor := bk1 c * r2 + bk2 c * r4 + bk3 c * r6 in
  let xy := x * y in
  padd (pscale radial_factor p)
       (2 * bp1 c * xy + bp2 c * (r2 + 2 * x2), bp1 c * (r2 + 2 * y2) + 2 * bp2 c * xy).

(* OwenCoefficients, include/huira/cameras/distortion/owen_distortion.hpp *)
Record owen_coeffs := { oe1 : R; oe2 : R; oe3 : R; oe4 : R; oe5 : R; oe6 : R }.

(* OwenDistortion::compute_delta_, owen_distortion.ipp:30-58 *)
Definition owen_delta (c : owen_coeffs) (p : pixel) : pixel :=
  let x := fst p in let y := snd p in
  let x2 := x * x in let y2 := y * y in
  let r2 := x2 + y2 in let r := sqrt r2 in let r3 := r * r2 in let r4 := r2 * r2 in
  let radial_factor := oe2 c * r2 + oe4 c * r4 + oe5 c * y + oe6 c * x in
  let rotated_factor := oe1 c * r + oe3 c * r3 in
  padd (pscale radial_factor p) (pscale rotated_factor (- y, x)).

(* OpenCVCoefficients, include/huira/cameras/distortion/opencv_distortion.hpp *)
Record opencv_coeffs := { ck1 : R; ck2 : R; ck3 : R; ck4 : R; ck5 : R; ck6 : R;
                          cp1 : R; cp2 : R; cs1 : R; cs2 : R; cs3 : R; cs4 : R }.

(* kMinDenominator, opencv_distortion.hpp:85 *)
Definition k_min_denominator : R := / 10000000000.
(* the clamp, opencv_distortion.ipp:55-59. copysign on an exact real zero takes the positive sign
   (the sign of a floating-point zero is not modelled). *)
Definition clamp_denominator (d : R) : R :=
  if Rltb (Rabs d) k_min_denominator then (if Rltb d 0 then - k_min_denominator else k_min_denominator) else d.

(* OpenCVDistortion::compute_delta_, opencv_distortion.ipp:32-75 *)
Definition opencv_delta (c : opencv_coeffs) (p : pixel) : pixel :=
  let x := fst p in let y := snd p in
  let x2 := x * x in let y2 := y * y in
  let r2 := x2 + y2 in let r4 := r2 * r2 in let r6 := r4 * r2 in
  let numerator := 1 + ck1 c * r2 + ck2 c * r4 + ck3 c * r6 in
  let denominator := clamp_denominator (1 + ck4 c * r2 + ck5 c * r4 + ck6 c * r6) in
  let radial_factor := numerator / denominator in
  let xy := x * y in
  padd (pscale radial_factor p)
       (2 * cp1 c * xy + cp2 c * (r2 + 2 * x2) + cs1 c * r2 + cs2 c * r4,
        cp1 c * (r2 + 2 * y2) + 2 * cp2 c * xy + cs3 c * r2 + cs4 c * r4).

(* distort, brown_distortion.ipp:68-72, owen_distortion.ipp:68-72, opencv_distortion.ipp:85-89 *)
Definition distort (delta : pixel -> pixel) (p : pixel) : pixel := padd p (delta p).

(* the undistort loop, brown_distortion.ipp:97-109 (owen_distortion.ipp:89-101 and
   opencv_distortion.ipp:106-118 are the same text): at most n more iterations *)
Fixpoint undistort_loop (delta : pixel -> pixel) (tol_sq : R) (h : pixel) (n : nat) (u : pixel) : pixel :=
  match n with
  | O => u
  | S m =>
      let new_coords := psub h (delta u) in
      let diff := psub new_coords u in
      let error_sq := fst diff * fst diff + snd diff * snd diff in
      if Rltb error_sq tol_sq then new_coords else undistort_loop delta tol_sq h m new_coords
  end.

(* undistort, brown_distortion.ipp:82-116; max_iterations_ and tol_sq_ are distortion.hpp:59-60 *)
Definition undistort (delta : pixel -> pixel) (max_iterations : nat) (tol_sq : R) (h : pixel) : pixel :=
  undistort_loop delta tol_sq h max_iterations h.

(* set_tolerance, distortion.hpp:51-55, and the defaults, distortion.hpp:59-60 *)
Definition set_tolerance (t : R) : R := t * t.
Definition default_max_iterations : nat := 20.
Definition default_tol_sq : R := / 1000000000000.
