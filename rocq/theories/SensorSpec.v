(* What a user expects of the sensor and the aperture. *)
From Verif Require Import Vec3 CameraModel SensorModel.

(* a sensor that could be built: the ranges the documentation gives *)
Definition valid_sensor (s : sensor) : Prop :=
  0 < full_well s /\ 0 <= read_noise s /\ 0 <= dark_current s /\ 0 <= bias_dn s /\ (1 <= bit_depth s)%Z /\ 0 < gain s.

(* the response of a noiseless pixel to a number of electrons *)
Definition response (s : sensor) (e : R) : R := noise_and_adc s e 0 0 0.
(* electrons from which the response cannot grow: the well is full or the converter is at its maximum *)
Definition saturation (s : sensor) : R := Rmin (full_well s) (gain s * max_dn s).

(* one of the levels 0, 1/max, 2/max, ... of the converter *)
Definition is_level (s : sensor) (x : R) : Prop := exists n : Z, x * (2 ^ Z.to_nat (bit_depth s) - 1) = IZR n.

Definition on_disc (radius : R) (p : R * R) : Prop := fst p * fst p + snd p * snd p <= radius * radius.
