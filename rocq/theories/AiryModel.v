(* Model of AiryDisk::evaluate and bessel_j1, include/huira_impl/cameras/psfs/airy_disk.ipp, with exact real arithmetic; one spectral channel, its centre wavelength. *)
From Verif Require Import Common Vec3.
Open Scope R_scope.

(* bessel_j1, 81-109 *)
Definition bessel_near (x : R) : R :=
  let y := x * x in
  let ans1 := x * (72362614232 + y * (-7895059235 + y * (2423968531 / 10 + y * (-2972611439 / 1000 + y * (1570448260 / 100000 + y * (-3016036606 / 100000000)))))) in
  let ans2 := 144725228442 + y * (2300535178 + y * (1858330474 / 100 + y * (9944743394 / 100000 + y * (3769991397 / 10000000 + y * 1)))) in
  ans1 / ans2.
Definition bessel_far (x : R) : R :=
  let z := 8 / x in
  let y := z * z in
  let xx := x - 2356194491 / 1000000000 in
  let ans1 := 1 + y * (183105 / 100000000 + y * (-3516396496 / 100000000000000 + y * (2457520174 / 1000000000000000 + y * (-240337019 / 1000000000000000)))) in
  let ans2 := 4687499995 / 100000000000 + y * (-2002690873 / 10000000000000 + y * (8449199096 / 1000000000000000 + y * (-88228987 / 100000000000000 + y * (105787412 / 1000000000000000)))) in
  sqrt (636619772 / 1000000000 / x) * (cos xx * ans1 - z * sin xx * ans2).
Definition bessel_j1 (x : R) : R := let x := Rabs x in if Rltb x 8 then bessel_near x else bessel_far x.
(* the constructor, 23-35: f_number_ = focal length / aperture diameter *)
Definition f_number (focal_length aperture_diameter : R) : R := focal_length / aperture_diameter.
(* evaluate, 47-76 *)
Definition airy_evaluate (n pitch_x pitch_y wavelength x y : R) : R :=
  let r := sqrt ((x * pitch_x) * (x * pitch_x) + (y * pitch_y) * (y * pitch_y)) in
  if Rltb r (1 / 10 ^ 20) then 1 else
  let arg := PI * r / (wavelength * n) in
  let airy := 2 * bessel_j1 arg / arg in
  airy * airy.
