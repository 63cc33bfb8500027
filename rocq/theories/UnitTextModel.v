(* Model of the texts of quantities: include/huira_impl/units/dimensionality.ipp (unit names), quantity.ipp:67-72 and spectral_quantity.ipp:66-79 (to_string).
   Exponents are integers (int overflow of the exponents is a compile time error); numbers are real. *)
From Coq Require Import String List ZArith Reals Decimal DecimalString.
Import ListNotations.
Local Open Scope string_scope.
Local Open Scope Z_scope.

(* the exponents L M T I O N J A S of Dimensionality, dimensionality.hpp:8-18 *)
Record dim := Dim { d_L : Z; d_M : Z; d_T : Z; d_I : Z; d_O : Z; d_N : Z; d_J : Z; d_A : Z; d_S : Z }.
Definition exponents (d : dim) : list Z := [d_L d; d_M d; d_T d; d_I d; d_O d; d_N d; d_J d; d_A d; d_S d].
(* the names in the order of dimensionality.ipp:88-96 *)
Definition si_names : list string := ["m"; "Kg"; "s"; "A"; "K"; "mol"; "cd"; "rad"; "sr"].
(* multiplication and division of dimensions, dimensionality.hpp:28-88 *)
Definition dmul (a b : dim) : dim := Dim (d_L a + d_L b) (d_M a + d_M b) (d_T a + d_T b) (d_I a + d_I b) (d_O a + d_O b) (d_N a + d_N b) (d_J a + d_J b) (d_A a + d_A b) (d_S a + d_S b).
Definition ddiv (a b : dim) : dim := Dim (d_L a - d_L b) (d_M a - d_M b) (d_T a - d_T b) (d_I a - d_I b) (d_O a - d_O b) (d_N a - d_N b) (d_J a - d_J b) (d_A a - d_A b) (d_S a - d_S b).
(* dimensionality.hpp:106-153 *)
Definition Dimensionless := Dim 0 0 0 0 0 0 0 0 0.
Definition Length := Dim 1 0 0 0 0 0 0 0 0.
Definition Mass := Dim 0 1 0 0 0 0 0 0 0.
Definition Time := Dim 0 0 1 0 0 0 0 0 0.
Definition Current := Dim 0 0 0 1 0 0 0 0 0.
Definition LuminousIntensity := Dim 0 0 0 0 0 0 1 0 0.
Definition SolidAngle := Dim 0 0 0 0 0 0 0 0 1.
Definition Area := dmul Length Length.
Definition Velocity := ddiv Length Time.
Definition Acceleration := ddiv Velocity Time.
Definition Frequency := ddiv Dimensionless Time.
Definition Force := dmul Mass Acceleration.
Definition Pressure := ddiv Force Area.
Definition Energy := dmul Force Length.
Definition Power := ddiv Energy Time.
Definition Charge := dmul Time Current.
Definition Voltage := ddiv Power Current.
Definition Capacitance := ddiv Charge Voltage.
Definition Resistance := ddiv Voltage Current.
Definition LuminousFlux := dmul LuminousIntensity SolidAngle.
Definition Illuminance := ddiv LuminousFlux Area.
Definition Radiance := ddiv Power (dmul Area SolidAngle).
Definition Irradiance := ddiv Power Area.
Definition RadiantIntensity := ddiv Power SolidAngle.
Definition Luminance := ddiv LuminousIntensity Area.

(* std::to_string of a positive int *)
Definition to_string (v : Z) : string := NilEmpty.string_of_uint (Pos.to_uint (Z.to_pos v)).
(* get_si_unit_string, dimensionality.ipp:13-33 *)
Definition get_si_unit_string (power_prefix val : Z) (unit : string) : string :=
  let val := power_prefix * val in
  if val =? 0 then "" else if val =? 1 then unit else if 1 <? val then "(" ++ unit ++ ")^" ++ to_string val else "".
(* the accumulation, dimensionality.ipp:85-107 *)
Fixpoint accumulate (power_prefix : Z) (names : list string) (vals : list Z) : string :=
  match names, vals with n :: names, v :: vals => get_si_unit_string power_prefix v n ++ accumulate power_prefix names vals | _, _ => "" end.
(* the named derived units in the order they are tried, dimensionality.ipp:38-83 *)
Definition named : list (dim * string) :=
  [(Frequency, "Hz"); (Force, "N"); (Pressure, "Pa"); (Energy, "J"); (Power, "W"); (Charge, "C"); (Voltage, "V"); (Capacitance, "F"); (Resistance, "Ohm"); (LuminousFlux, "lm");
   (Illuminance, "lm / m^2"); (Radiance, "W / m^2 sr"); (Irradiance, "W / m^2"); (RadiantIntensity, "W / sr"); (Luminance, "cd / m^2")].
Definition dim_eq (a b : dim) : bool := forallb (fun p => fst p =? snd p) (combine (exponents a) (exponents b)).
(* to_si_string, dimensionality.ipp:35-121 *)
Definition fallback (d : dim) : string :=
  let numerator := accumulate 1 si_names (exponents d) in
  let denominator := accumulate (-1) si_names (exponents d) in
  if (String.eqb denominator "" && String.eqb numerator "")%bool then "dimensionless"
  else if String.eqb numerator "" then "1 / " ++ denominator
  else if String.eqb denominator "" then numerator
  else numerator ++ " / " ++ denominator.
Definition to_si_string (d : dim) : string :=
  match find (fun p => dim_eq (fst p) d) named with Some p => snd p | None => fallback d end.

(* The numbers in the texts. std::to_string(double) shows millionths, rounded to nearest: [rnd] is the rounding of printf to an integer. A scalar quantity shows its value in SI units
   (quantity.ipp:67-72), a spectral quantity the values as stored (spectral_quantity.ipp:74). [ratio] is the scale's ratio to SI *)
Definition quantity_text (rnd : R -> Z) (d : dim) (ratio value : R) : Z * string := (rnd (value * ratio * 1000000)%R, to_si_string d).
Definition spectral_text (rnd : R -> Z) (d : dim) (ratio : R) (values : list R) : list Z * string := (map (fun v => rnd (v * 1000000)%R) values, to_si_string d).
