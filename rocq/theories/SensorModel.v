(* Model of SensorModel / SimpleSensor (include/huira_impl/cameras/sensors), CircularAperture
   (include/huira_impl/cameras/apertures) and the depth of field part of CameraModel, in exact real
   arithmetic (float rounding and overflow are not modelled). *)
From Verif Require Import Vec3 DistortionModel CameraModel.

(* the electronic part of SensorConfig, sensor_model.hpp:26-45 *)
Record sensor := {
  full_well : R; simulate_noise : bool; read_noise : R; dark_current : R; bias_dn : R;
  bit_depth : Z; gain : R; unity_db : R
}.
(* defaults, sensor_model.hpp:33-45 *)
Definition sensor0 : sensor :=
  {| full_well := 20000; simulate_noise := true; read_noise := 10; dark_current := 1; bias_dn := 10;
     bit_depth := 12; gain := 122 / 100; unity_db := 0 |}.

(* the setters, sensor_model.ipp:134-253 and sensor_model.hpp:52-59: new state and whether the call threw *)
Definition pos_finite (a : fl) : option R := match a with Fin r => if Rleb r 0 then None else Some r | _ => None end.
Definition nonneg_finite (a : fl) : option R := match a with Fin r => if Rltb r 0 then None else Some r | _ => None end.
Definition finite (a : fl) : option R := match a with Fin r => Some r | _ => None end.
Definition checked {A} (s : sensor) (o : option A) (f : A -> sensor) : sensor * bool :=
  match o with Some r => (f r, false) | None => (s, true) end.
(* set_full_well_capacity, sensor_model.ipp:134-143 *)
Definition set_full_well (a : fl) (s : sensor) := checked s (pos_finite a) (fun r =>
  {| full_well := r; simulate_noise := simulate_noise s; read_noise := read_noise s; dark_current := dark_current s;
     bias_dn := bias_dn s; bit_depth := bit_depth s; gain := gain s; unity_db := unity_db s |}).
(* set_simulate_noise, sensor_model.hpp:104 *)
Definition set_simulate_noise (b : bool) (s : sensor) : sensor * bool :=
  ({| full_well := full_well s; simulate_noise := b; read_noise := read_noise s; dark_current := dark_current s;
     bias_dn := bias_dn s; bit_depth := bit_depth s; gain := gain s; unity_db := unity_db s |}, false).
(* set_read_noise, sensor_model.ipp:151-160 *)
Definition set_read_noise (a : fl) (s : sensor) := checked s (nonneg_finite a) (fun r =>
  {| full_well := full_well s; simulate_noise := simulate_noise s; read_noise := r; dark_current := dark_current s;
     bias_dn := bias_dn s; bit_depth := bit_depth s; gain := gain s; unity_db := unity_db s |}).
(* set_dark_current, sensor_model.ipp:168-177 *)
Definition set_dark_current (a : fl) (s : sensor) := checked s (nonneg_finite a) (fun r =>
  {| full_well := full_well s; simulate_noise := simulate_noise s; read_noise := read_noise s; dark_current := r;
     bias_dn := bias_dn s; bit_depth := bit_depth s; gain := gain s; unity_db := unity_db s |}).
(* set_bias_level_dn, sensor_model.ipp:185-194 *)
Definition set_bias (a : fl) (s : sensor) := checked s (nonneg_finite a) (fun r =>
  {| full_well := full_well s; simulate_noise := simulate_noise s; read_noise := read_noise s; dark_current := dark_current s;
     bias_dn := r; bit_depth := bit_depth s; gain := gain s; unity_db := unity_db s |}).
(* set_bit_depth, sensor_model.ipp:202-210 *)
Definition set_bit_depth (n : Z) (s : sensor) := checked s (if (n <=? 0)%Z then None else Some n) (fun r =>
  {| full_well := full_well s; simulate_noise := simulate_noise s; read_noise := read_noise s; dark_current := dark_current s;
     bias_dn := bias_dn s; bit_depth := r; gain := gain s; unity_db := unity_db s |}).
Definition with_gain (g : R) (s : sensor) : sensor :=
  {| full_well := full_well s; simulate_noise := simulate_noise s; read_noise := read_noise s; dark_current := dark_current s;
     bias_dn := bias_dn s; bit_depth := bit_depth s; gain := g; unity_db := unity_db s |}.
(* set_gain_adu, sensor_model.ipp:218-226 *)
Definition set_gain_adu (a : fl) (s : sensor) := checked s (pos_finite a) (fun r => with_gain r s).
(* set_unity_db, sensor_model.ipp:234-243 *)
Definition set_unity_db (a : fl) (s : sensor) := checked s (finite a) (fun r =>
  {| full_well := full_well s; simulate_noise := simulate_noise s; read_noise := read_noise s; dark_current := dark_current s;
     bias_dn := bias_dn s; bit_depth := bit_depth s; gain := gain s; unity_db := r |}).
(* SensorConfig::set_gain_db and gain_db, sensor_model.hpp:52-65 *)
Definition set_gain_db (a : fl) (s : sensor) := checked s (finite a) (fun g => with_gain (Rpower 10 ((unity_db s - g) / 20)) s).
Definition log10 (x : R) : R := ln x / ln 10.
Definition gain_db (s : sensor) : R := unity_db s - 20 * log10 (gain s).

Inductive sensor_call :=
| FullWell (a : fl) | SimulateNoise (b : bool) | ReadNoise (a : fl) | DarkCurrent (a : fl) | Bias (a : fl)
| BitDepth (n : Z) | GainAdu (a : fl) | UnityDb (a : fl) | GainDb (a : fl).
Definition sensor_do (k : sensor_call) (s : sensor) : sensor * bool :=
  match k with
  | FullWell a => set_full_well a s | SimulateNoise b => set_simulate_noise b s | ReadNoise a => set_read_noise a s
  | DarkCurrent a => set_dark_current a s | Bias a => set_bias a s | BitDepth n => set_bit_depth n s
  | GainAdu a => set_gain_adu a s | UnityDb a => set_unity_db a s | GainDb a => set_gain_db a s
  end.
Fixpoint sensor_run (l : list sensor_call) (s : sensor) : sensor :=
  match l with [] => s | k :: r => sensor_run r (fst (sensor_do k s)) end.

(* ---- read-out ---- *)
(* max_dn, simple_sensor.ipp:77 *)
Definition max_dn (s : sensor) : R := 2 ^ Z.to_nat (bit_depth s) - 1.
Definition clampR (lo hi x : R) : R := if Rltb x lo then lo else if Rltb hi x then hi else x.
(* noise_and_adc, simple_sensor.ipp:24-53; shot and rn are the two draws *)
Definition noise_and_adc (s : sensor) (signal_e dark_e shot rn : R) : R :=
  let accumulated := signal_e + dark_e in
  let bias := if simulate_noise s then bias_dn s else 0 in
  let accumulated := if simulate_noise s then accumulated + shot + rn else accumulated in
  let accumulated := Rmin accumulated (full_well s) in
  let dn := accumulated / gain s + bias in
  clampR 0 (max_dn s) dn / max_dn s.

(* SimpleSensor::readout, simple_sensor.ipp:66-115, for a single-channel sensor: pixels are the electrons
   of each pixel in scan order. The random generator is a static local, so its state survives the call; gen
   draws a normal deviate with the given standard deviation. The draws happen only when noise is simulated. *)
Section Readout.
Context {rng : Type}.
Variable gen : R -> rng -> R * rng.
Fixpoint readout (s : sensor) (dark_e : R) (pixels : list R) (st : rng) : list R * rng :=
  match pixels with
  | [] => ([], st)
  | e :: r =>
      let '(shot, st1) := if simulate_noise s then gen (sqrt (e + dark_e)) st else (0, st) in
      let '(rn, st2) := if simulate_noise s then gen (read_noise s) st1 else (0, st1) in
      let '(out, st3) := readout s dark_e r st2 in
      (noise_and_adc s e dark_e shot rn :: out, st3)
  end.
(* the electrons of one pixel, simple_sensor.ipp:88-94 and :106, summed over the bins: power, photon
   energy and quantum efficiency per bin *)
Definition bin : Type := (R * R * R)%type.
Definition bin_electrons (dt : R) (b : bin) : R := fst (fst b) * dt / snd (fst b) * snd b.
Fixpoint electrons (dt : R) (bins : list bin) : R :=
  match bins with [] => 0 | b :: r => bin_electrons dt b + electrons dt r end.
(* dark_e, simple_sensor.ipp:79-82 *)
Definition dark_electrons (s : sensor) (dt : R) : R := if simulate_noise s then dark_current s * dt else 0.
Definition readout_frame (s : sensor) (dt : R) (frame : list (list bin)) (st : rng) : list R * rng :=
  readout s (dark_electrons s dt) (map (electrons dt) frame) st.
End Readout.

(* ---- aperture and f-stop ---- *)
(* CircularAperture's data members, circular_aperture.hpp:49-51 *)
Record aperture := { ap_area : R; ap_diameter : R; ap_radius : R }.
(* set_area, circular_aperture.ipp:34-39 *)
Definition set_area (a : R) : aperture := {| ap_area := a; ap_diameter := sqrt (4 * a / PI); ap_radius := sqrt (4 * a / PI) / 2 |}.
(* set_diameter, circular_aperture.ipp:72-78 *)
Definition set_diameter (d : R) : aperture := {| ap_area := PI * (d * d) / 4; ap_diameter := d; ap_radius := d / 2 |}.
(* CameraModel::set_fstop and fstop, camera_model.ipp:571-598, without the PSF rebuild *)
Definition set_fstop (focal_length fstop : R) : aperture :=
  let diameter := focal_length / fstop in set_area (PI * (diameter * diameter) / 4).
Definition fstop (focal_length : R) (a : aperture) : R :=
  let diameter := 2 * sqrt (ap_area a / PI) in focal_length / diameter.

(* CircularAperture::sample, circular_aperture.ipp:42-62, for the sampler's pair u *)
Definition aperture_sample (ap : aperture) (u : R * R) : R * R :=
  let a := 2 * fst u - 1 in
  let b := 2 * snd u - 1 in
  if Rltb (b * b) (a * a) then
    let theta := PI / 4 * (b / a) in (ap_radius ap * a * cos theta, ap_radius ap * a * sin theta)
  else if Req_EM_T b 0 then (0, 0)
  else let theta := PI / 2 - PI / 4 * (a / b) in (ap_radius ap * b * cos theta, ap_radius ap * b * sin theta).

(* ---- focus ---- *)
(* set_focus_distance, camera_model.ipp:400-416: the stored distance, or None when it throws *)
Definition set_focus_distance (d : fl) : option fl :=
  match d with
  | NaN => None
  | Fin r => if Rltb (Rabs r) (/ 1000000000000) then None else Some (Fin r)
  | _ => Some d
  end.
(* set_diopters and get_diopters, camera_model.ipp:427-449 *)
Definition set_diopters (x : R) : option fl :=
  if Rltb (Rabs x) (/ 1000000000000) then set_focus_distance PInf else set_focus_distance (Fin (1 / x)).
Definition get_diopters (d : fl) : R := match d with Fin r => 1 / r | _ => 0 end.

(* cast_ray with depth of field, camera_model.ipp:485-512: origin and unnormalised direction of the ray of a
   pixel whose pinhole direction is dir, through the aperture point ap *)
Definition dof_ray (dir : vec3) (d : fl) (ap : R * R) : vec3 * vec3 :=
  let aperture_point := V3 (fst ap) (snd ap) 0 in
  (aperture_point, match d with Fin r => vsub (vscale r dir) aperture_point | _ => dir end).

(* get_projected_aperture_area, camera_model.ipp:561-566, for a unit direction *)
Definition projected_area (ap : aperture) (dir : vec3) : R := ap_area ap * Rabs (vz dir).
