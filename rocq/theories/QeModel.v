(* Model of the spectral side of the sensor: set_quantum_efficiency (include/huira_impl/cameras/sensors/sensor_model.ipp:117-125), default_qe
   (include/huira/cameras/sensors/sensor_model.hpp:68-72), valid_ratio (include/huira_impl/core/spectral_bins.ipp:382-400) and the read-out of an RGB sensor
   (include/huira_impl/cameras/sensors/simple_sensor.ipp:96-106). Exact real arithmetic with NaN and infinities as arguments. *)
From Verif Require Import Vec3 DistortionModel CameraModel SensorModel.
Open Scope R_scope.

(* one value of valid_ratio's loop: `x < 0 || x > 1`, isnan, isinf *)
Definition ratio_ok (x : fl) : bool := match x with Fin r => negb (Rltb r 0 || Rltb 1 r) | _ => false end.
Definition valid_ratio_fl (q : list fl) : bool := forallb ratio_ok q.
Definition value (x : fl) : R := match x with Fin r => r | _ => 0 end.
(* set_quantum_efficiency: the stored spectrum and whether the call threw *)
Definition set_qe (q : list fl) (old : list R) : list R * bool := if valid_ratio_fl q then (map value q, false) else (old, true).
Definition qe_history (l : list (list fl)) (start : list R) : list R := fold_left (fun s q => fst (set_qe q s)) l start.
(* default_qe: half of each photon energy's share of their sum *)
Definition default_qe (energies : list R) : list R := map (fun e => 5 / 10 * e / fold_left Rplus energies 0) energies.

(* the electrons of each channel of an RGB pixel, simple_sensor.ipp:89-98 *)
Definition channel_electrons (dt : R) (power energy qe : list R) : list R :=
  map (fun t => fst (fst t) * dt / snd (fst t) * snd t) (combine (combine power energy) qe).
Section Rgb.
Context {rng : Type}.
Variable gen : R -> rng -> R * rng.
(* one call of noise_and_adc with its two draws, simple_sensor.ipp:24-53 *)
Definition convert (s : sensor) (dark_e e : R) (st : rng) : R * rng :=
  let '(shot, st1) := if simulate_noise s then gen (sqrt (e + dark_e)) st else (0, st) in
  let '(rn, st2) := if simulate_noise s then gen (read_noise s) st1 else (0, st1) in
  (noise_and_adc s e dark_e shot rn, st2).
(* the loop over the channels, simple_sensor.ipp:101-105 *)
Fixpoint channels (s : sensor) (dark_e : R) (l : list R) (st : rng) : list R * rng :=
  match l with
  | [] => ([], st)
  | e :: r => let '(v, st1) := convert s dark_e e st in let '(out, st2) := channels s dark_e r st1 in (v :: out, st2)
  end.
(* the loop over the pixels of an RGB sensor, simple_sensor.ipp:84-113 *)
Fixpoint readout_rgb (s : sensor) (dt : R) (energy qe : list R) (frame : list (list R)) (st : rng) : list (list R) * rng :=
  match frame with
  | [] => ([], st)
  | p :: r => let '(px, st1) := channels s (dark_electrons s dt) (channel_electrons dt p energy qe) st in
              let '(out, st2) := readout_rgb s dt energy qe r st1 in (px :: out, st2)
  end.
End Rgb.
