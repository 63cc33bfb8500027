(* Model of what StarData makes of a catalogue entry, include/huira_impl/stars/io/star_data.ipp, and of the irradiance of a star,
   include/huira_impl/stars/star.ipp:92-100. Exact real arithmetic: the float fields (temperature, magnitude, proper motions) are not rounded. *)
From Verif Require Import Common Vec3 SpectralModel LightModel MotionModel.
Import ListNotations.
Open Scope R_scope.

(* effective temperature from the B-V colour, star_data.ipp:29-31 *)
Definition color_temperature (bv : R) : R := 4600 * (1 / (92 / 100 * bv + 17 / 10) + 1 / (92 / 100 * bv + 62 / 100)).
(* visual magnitude and colour, star_data.ipp:12-27; None for a magnitude stands for NaN. None: the function returns at line 15 *)
Definition magnitude_color (bt vt : option R) : option (R * R) :=
  match bt, vt with
  | None, None => None
  | Some b, Some v => Some (v - 9 / 100 * (b - v), 85 / 100 * (b - v))
  | None, Some v => Some (v, 3 / 10)
  | Some b, None => Some (b, 3 / 10)
  end.
(* star_data.ipp:38-46: the V-band photon count per steradian of a black body, 1000 samples of johnson_vband_approximation (physics.ipp:107-131) *)
Definition radiance_from_temp (temp : R) : R :=
  let lam := sample_grid (350 * nano) (850 * nano) 1000 in
  trapezoid lam (map (fun l => vband_response l * planck temp l / photon_energy l) lam).
(* process_magnitude, star_data.ipp:10-48: (visual_magnitude, temperature, solid_angle); None: the fields stay NaN *)
Definition process_magnitude (bt vt : option R) : option (R * R * R) :=
  match magnitude_color bt vt with
  | None => None
  | Some (vmag, bv) => let temp := color_temperature bv in Some (vmag, temp, v_band_irradiance vmag / radiance_from_temp temp)
  end.
(* Star::compute_irradiance_, star.ipp:92-100; black_body's default is 100 steps (physics.hpp:29) *)
Definition star_irradiance (bins : list bin) (temp solid_angle : R) : list R := each (fun x => x * solid_angle) (black_body bins temp 100).
(* the irradiance of a star of the catalogue *)
Definition catalogue_irradiance (bins : list bin) (bt vt : option R) : option (list R) :=
  match process_magnitude bt vt with Some (_, t, w) => Some (star_irradiance bins t w) | None => None end.

(* normalize_epoch, star_data.ipp:50-68: (RA, DEC) afterwards; DEC is updated before it is used for RA *)
Definition normalize_epoch (ra dec pm_ra pm_dec epoch_ra epoch_dec : R) : R * R :=
  if Req_EM_T epoch_ra 2000 then if Req_EM_T epoch_dec 2000 then (ra, dec)
    else (let d := dec + pm_dec * MAS_TO_RAD * (2000 - epoch_dec) in (ra + pm_ra * MAS_TO_RAD * (2000 - epoch_ra) / cos d, d))
  else let d := dec + pm_dec * MAS_TO_RAD * (2000 - epoch_dec) in (ra + pm_ra * MAS_TO_RAD * (2000 - epoch_ra) / cos d, d).
(* the direction of a star loaded from a catalogue, `years` after J2000 *)
Definition loaded_direction (ra dec pm_ra pm_dec epoch_ra epoch_dec years : R) : vec3 :=
  let '(a, d) := normalize_epoch ra dec pm_ra pm_dec epoch_ra epoch_dec in star_direction a d pm_ra pm_dec years.
