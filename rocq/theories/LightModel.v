(* Model of light sources and unresolved objects: include/huira_impl/assets/lights/sphere_light.ipp, include/huira_impl/assets/unresolved/*.ipp
   and visual_magnitude_to_irradiance (include/huira_impl/core/physics.ipp). Floats are exact reals: rounding, overflow, NaN and infinity are not
   modelled. A spectrum is the list of its bin values. Of a Transform only the position is used by the code. *)
From Coq Require Import Reals List.
From Verif Require Import Common Vec3 SpectralModel.
Import ListNotations.
Open Scope R_scope.

(** SphereLight *)
Record sphere_light := SL { sl_radius : R; sl_radiance : list R }.
(* the radius stored by every constructor: std::max(radius, 1e-5f), sphere_light.ipp:18,33,45,58 *)
Definition stored_radius (r : R) : R := Rmax r (/ 10 ^ 5).
Definition surface_area (r : R) : R := 4 * PI * r * r.
(* SphereLight(radius, spectral_power) 15-22 with set_spectral_power(SpectralWatts) 78-86 *)
Definition sphere_light_spectral (radius : R) (power : list R) : sphere_light :=
  let r := stored_radius radius in SL r (each (fun p => p / (PI * surface_area r)) power).
(* SphereLight(radius, power) 42-49 with set_spectral_power(Watt) 64-76; TSpectral{x} is x in each of the n bins *)
Definition sphere_light_scalar (n : nat) (radius power : R) : outcome sphere_light :=
  let r := stored_radius radius in
  if Rltb power 0 then Throws else Ok (SL r (repeat (power / (PI * surface_area r)) n)).
(* SphereLight(radius, spectral_radiance) 29-36 *)
Definition sphere_light_radiance (radius : R) (radiance : list R) : sphere_light := SL (stored_radius radius) radiance.

Record light_sample := LS { ls_wi : vec3; ls_Li : list R; ls_distance : R; ls_pdf : R }.
(* cos_theta_max 107-108 and 168-169, solid_angle 135-141 and 177-180 *)
Definition cone_cos (r d2 : R) : R := sqrt (Rmax 0 (1 - r * r / d2)).
Definition cone_solid_angle (r d2 : R) : R :=
  let solid_angle := 2 * PI * (1 - cone_cos r d2) in
  if Rltb solid_angle (/ 10 ^ 7) then PI * (r * r / d2) else solid_angle.
Definition normalize (v : vec3) : vec3 := vscale (/ vlen v) v.
(* the local frame, 119-126 *)
Definition light_frame_u (w : vec3) : vec3 :=
  if Rltb (Rabs (vz w)) (999 / 1000) then normalize (V3 (- vy w) (vx w) 0) else normalize (V3 0 (- vz w) (vy w)).
(* sample_li 88-151: u1 and u2 are the two numbers drawn from the sampler *)
Definition sample_li (l : sphere_light) (center p : vec3) (u1 u2 : R) : option light_sample :=
  let r := sl_radius l in
  let wc := vsub center p in
  let d2 := dot wc wc in
  let d := sqrt d2 in
  if Rleb d r then None else
  let cos_theta_max := cone_cos r d2 in
  let cos_theta := (1 - u1) + u1 * cos_theta_max in
  let sin_theta := sqrt (Rmax 0 (1 - cos_theta * cos_theta)) in
  let phi := u2 * 2 * PI in
  let w := vscale (/ d) wc in
  let u := light_frame_u w in
  let v := cross w u in
  let wi := vadd (vadd (vscale (sin_theta * cos phi) u) (vscale (sin_theta * sin phi) v)) (vscale cos_theta w) in
  let solid_angle := cone_solid_angle r d2 in
  let b := dot wc wi in
  let discriminant := b * b - d2 + r * r in
  let distance := b - sqrt (Rmax 0 discriminant) in
  Some (LS wi (sl_radiance l) distance (1 / solid_angle)).
(* pdf_li 153-182 *)
Definition pdf_li (l : sphere_light) (center p wi : vec3) : R :=
  let r := sl_radius l in
  let wc := vsub center p in
  let d2 := dot wc wc in
  if Rleb d2 (r * r) then 0 else
  if Rltb (dot wi (normalize wc)) (cone_cos r d2) then 0 else 1 / cone_solid_angle r d2.
(* irradiance_at 193-208 *)
Definition irradiance_at (l : sphere_light) (position center : vec3) : list R :=
  let wc := vsub center position in
  let d2 := dot wc wc in
  let r2 := sl_radius l * sl_radius l in
  if Rleb d2 r2 then each (fun _ => 0) (sl_radiance l) else each (fun x => x * PI * (r2 / d2)) (sl_radiance l).

(** UnresolvedEmitter: unresolved_emitter.ipp *)
(* set_spectral_power 77-88 and 101-110 *)
Definition emitter_spectral (power : list R) : outcome (list R) := if valid power then Ok power else Throws.
Definition emitter_scalar (bins : list bin) (power : R) : outcome (list R) := if Rltb power 0 then Throws else Ok (from_total bins power).
(* resolve_irradiance 55-65 *)
Definition emitter_irradiance (power : list R) (position : vec3) : list R :=
  let distance := vlen position in each (fun x => x / (4 * PI * (distance * distance))) power.

(** visual_magnitude_to_irradiance, physics.ipp:165-213 *)
(* black_body<TSpectral>(5778, 100), physics.ipp:78-92: 0 stands in for a bin whose integral fails, which needs fewer than two steps *)
Definition black_body (bins : list bin) (temp : R) (steps : nat) : list R :=
  map (fun b => match black_body_bin temp b steps with Ok r => r | _ => 0 end) bins.
Definition sample_grid (lo hi : R) (n : nat) : list R := map (fun i => lo + INR i * ((hi - lo) / INR (n - 1))) (seq 0 n).
(* johnson_vband_approximation 107-131 *)
Definition vband_response (l : R) : R := let diff := l - 551 * nano in exp (- (diff * diff) / (2 * (38 * nano) * (38 * nano))).
(* photon_energies, spectral_bins.ipp:550-559 *)
Definition photon_energies (bins : list bin) : list R := map (fun b => photon_energy (b_center b)) bins.
Definition solar_vband_weighted : R :=
  let lam := sample_grid (350 * nano) (850 * nano) 500 in trapezoid lam (map (fun x => planck 5778 x * vband_response x) lam).
Definition layout_min (bins : list bin) : R := match bins with [] => 0 | b :: t => fold_left (fun m x => if Rltb (b_min x) m then b_min x else m) t (b_min b) end.
Definition layout_max (bins : list bin) : R := match bins with [] => 0 | b :: t => fold_left (fun m x => if Rltb m (b_max x) then b_max x else m) t (b_max b) end.
Definition solar_full_integral (bins : list bin) : R :=
  let lam := sample_grid (layout_min bins) (layout_max bins) 500 in trapezoid lam (map (planck 5778) lam).
Definition visual_magnitude_to_irradiance (bins : list bin) (m : R) (albedo : list R) : list R :=
  let solar_template := black_body bins 5778 100 in
  let solar_total := total solar_template in
  let total_flux := v_band_irradiance m * solar_full_integral bins / solar_vband_weighted in
  let scale := total_flux / solar_total in
  let photon_counts := zip Rmult (each (fun x => x * scale) solar_template) albedo in
  zip Rmult photon_counts (photon_energies bins).

(** UnresolvedAsteroid: unresolved_asteroid.ipp *)
(* constants.hpp:42-46 *)
Definition AU : R := 149597870700.
Definition log10 (x : R) : R := ln x / ln 10.
(* std::pow(x, y) for x >= 0 and y > 0 *)
Definition cpow (x y : R) : R := if Req_EM_T x 0 then 0 else Rpower x y.
(* asteroid_phi1 25-30, asteroid_phi2 42-47. At alpha = pi the double tan(alpha / 2) is a huge number and phi is 0; the real tan has no value there,
   so the theorems are about phase angles below pi *)
Definition asteroid_phi1 (alpha : R) : R := exp (- (333 / 100) * cpow (tan (alpha / 2)) (64 / 100)).
Definition asteroid_phi2 (alpha : R) : R := exp (- (187 / 100) * cpow (tan (alpha / 2)) (122 / 100)).
(* the apparent magnitude computed in resolve_irradiance, 158-184. Which light instance is the asteroid's own (156-157, 201) is `light`: None if it is
   not among the lights of the view. AU scaling: r_m * AU, 182-183 *)
Definition asteroid_magnitude (H G : R) (position : vec3) (light : option vec3) : outcome R :=
  match light with
  | None => Throws
  | Some lp =>
    let to_obs := vscale (-1) position in
    let to_light := vsub lp position in
    let delta_m := vlen to_obs in
    let r_m := vlen to_light in
    if Rleb r_m 0 || Rleb delta_m 0 then Throws else
    let cos_alpha := Rmax (-1) (Rmin 1 (dot (vscale (/ r_m) to_light) (vscale (/ delta_m) to_obs))) in
    let alpha := acos cos_alpha in
    let reduced_mag := H - 25 / 10 * log10 ((1 - G) * asteroid_phi1 alpha + G * asteroid_phi2 alpha) in
    let r_au := r_m * AU in
    let delta_au := delta_m * AU in
    Ok (reduced_mag + 5 * log10 (r_au * delta_au))
  end.
(* resolve_irradiance 151-203 *)
Definition asteroid_irradiance (bins : list bin) (H G : R) (albedo : list R) (position : vec3) (light : option vec3) : outcome (list R) :=
  match asteroid_magnitude H G position light with
  | Ok m => let e := visual_magnitude_to_irradiance bins m albedo in if valid e then Ok e else Throws
  | Throws => Throws | UB => UB
  end.

(** UnresolvedLambertianSphere: unresolved_sphere.ipp *)
(* lambert_phase_function 28-31 *)
Definition lambert_phase (phase : R) : R := (sin phase + (PI - phase) * cos phase) / PI.
(* resolve_irradiance 124-163; `light` is the position of the sphere's own light in the view with its light, None if it is not there. A sphere at the
   observer or at its light gives a division by zero, a NaN irradiance and hence an exception (154-158) *)
Definition lambert_irradiance (radius : R) (albedo : list R) (position : vec3) (light : option (sphere_light * vec3)) : outcome (list R) :=
  match light with
  | None => Throws
  | Some (l, lp) =>
    let to_light := vsub lp position in
    let distance := vlen position in
    if Rleb (vlen to_light) 0 || Rleb distance 0 then Throws else
    let L := normalize to_light in
    let V := vscale (/ distance) (vscale (-1) position) in
    let incident := irradiance_at l position lp in
    let phase := acos (dot V L) in
    let A := PI * radius * radius in
    let reflected_power := each (fun x => x * lambert_phase phase) (zip Rmult (each (fun a => a * A) albedo) incident) in
    let e := each (fun x => x / (4 * PI * distance * distance)) reflected_power in
    if valid e then Ok e else Throws
  end.
