(* Model of physical quantities: include/huira/units/quantity.hpp and units.hpp, and of times and intervals:
   include/huira_impl/core/time.ipp and include/huira/core/interval.hpp. Doubles are exact reals; a NaN value, which the
   constructors reject (quantity.hpp:35-38), has no counterpart. The one float conversion (interval.hpp:86) is modelled as
   binary32 rounding [fl]. *)
From Coq Require Import Reals ZArith Lra Lia List String.
From Verif Require Import Common Vec3 Float32.
Import ListNotations.
Open Scope R_scope.

(* unit tags, quantity.hpp:352-435 *)
Inductive utag := SiderealDayTag | DegreeTag | ArcMinuteTag | ArcSecondTag | SquareDegreeTag | CelsiusTag | FahrenheitTag | ElectronVoltTag.
(* IsRatioOrTag, unit_concepts.hpp: a std::ratio<num, den> or a tag *)
Inductive uscale := Ratio (num den : Z) | Tag (t : utag).
(* get_ratio, quantity.hpp:174-177 and the specializations 352-401, 427-432 *)
Definition tag_ratio (t : utag) : R :=
  match t with
  | SiderealDayTag => 861640905 / 10000
  | DegreeTag => PI / 180
  | ArcMinuteTag => PI / 10800
  | ArcSecondTag => PI / 648000
  | SquareDegreeTag => (PI / 180) * (PI / 180)
  | ElectronVoltTag => 1602176634 / 10 ^ 28
  | CelsiusTag | FahrenheitTag => 1 (* not used: to_si and from_si are specialized *)
  end.
Definition get_ratio (s : uscale) : R := match s with Ratio n d => IZR n / IZR d | Tag t => tag_ratio t end.
(* to_si(double), from_si(double), quantity.hpp:179-181; Celsius and Fahrenheit 403-425 *)
Definition to_si (s : uscale) (v : R) : R :=
  match s with Tag CelsiusTag => v + 27315 / 100 | Tag FahrenheitTag => (v + 45967 / 100) * (5 / 9) | s => v * get_ratio s end.
Definition from_si (s : uscale) (v : R) : R :=
  match s with Tag CelsiusTag => v - 27315 / 100 | Tag FahrenheitTag => v * (9 / 5) - 45967 / 100 | s => v / get_ratio s end.
(* a quantity: its scale and stored value; the dimension, a compile-time check, is not represented here *)
Record quantity := Q { q_scale : uscale; q_value : R }.
Definition q_si (q : quantity) : R := to_si (q_scale q) (q_value q).
(* the converting constructor quantity.hpp:41-45 and as() 70-85 *)
Definition q_as (s : uscale) (q : quantity) : quantity := Q s (from_si s (q_si q)).
(* std::ratio keeps num/den in lowest terms *)
Definition mk_ratio (n d : Z) : uscale := let g := Z.gcd n d in Ratio (n / g) (d / g).
Definition is_tag (s : uscale) : bool := match s with Tag _ => true | _ => false end.
Definition ratio_multiply (a b : uscale) : uscale := match a, b with Ratio n d, Ratio n' d' => mk_ratio (n * n') (d * d') | _, _ => Ratio 1 1 end.
Definition ratio_divide (a b : uscale) : uscale := match a, b with Ratio n d, Ratio n' d' => mk_ratio (n * d') (d * n') | _, _ => Ratio 1 1 end.
(* operator* and operator/ of two quantities, quantity.hpp:250-277; of a number and a quantity 279-297; the members
   operator* and operator/ by a number 117-127 *)
Definition q_mul (a b : quantity) : quantity :=
  if is_tag (q_scale a) || is_tag (q_scale b) then Q (Ratio 1 1) (q_si a * q_si b) else Q (ratio_multiply (q_scale a) (q_scale b)) (q_value a * q_value b).
Definition q_div (a b : quantity) : quantity :=
  if is_tag (q_scale a) || is_tag (q_scale b) then Q (Ratio 1 1) (q_si a / q_si b) else Q (ratio_divide (q_scale a) (q_scale b)) (q_value a / q_value b).
Definition q_smul (k : R) (q : quantity) : quantity := Q (q_scale q) (k * q_value q).
Definition q_sdiv (q : quantity) (k : R) : quantity := Q (q_scale q) (q_value q / k).
Definition q_inv (k : R) (q : quantity) : quantity := if is_tag (q_scale q) then Q (Ratio 1 1) (k / q_si q) else Q (ratio_divide (Ratio 1 1) (q_scale q)) (k / q_value q).
(* operator+ and operator- of the same dimension, quantity.hpp:299-315; with equal scales 90-100 (no conversion) *)
Definition q_add (a b : quantity) : quantity := Q (q_scale a) (q_value a + q_value (q_as (q_scale a) b)).
Definition q_sub (a b : quantity) : quantity := Q (q_scale a) (q_value a - q_value (q_as (q_scale a) b)).
Definition q_add_same (s : uscale) (a b : R) : quantity := Q s (a + b).
Definition q_sub_same (s : uscale) (a b : R) : quantity := Q s (a - b).
Definition q_neg (q : quantity) : quantity := Q (q_scale q) (- q_value q).
(* comparisons: different scales 317-351 compare SI values, equal scales 147-157 the stored ones *)
Definition q_lt (a b : quantity) : bool := Rltb (q_si a) (q_si b).
Definition q_lt_same (s : uscale) (a b : R) : bool := Rltb a b.

(* the named units, units.hpp:46-209 *)
Definition named_units : list (string * uscale) := [
  ("Kilometer", Ratio 1000 1); ("Meter", Ratio 1 1); ("Centimeter", Ratio 1 100); ("Millimeter", Ratio 1 1000); ("Micrometer", Ratio 1 1000000); ("Nanometer", Ratio 1 1000000000);
  ("AstronomicalUnit", Ratio 149597870700 1); ("Foot", Ratio 381 1250); ("Yard", Ratio 1143 1250); ("Mile", Ratio 80467 50);
  ("Kilogram", Ratio 1 1); ("Gram", Ratio 1 1000); ("Milligram", Ratio 1 1000000);
  ("SiderealDay", Tag SiderealDayTag); ("Day", Ratio 86400 1); ("Hour", Ratio 3600 1); ("Minute", Ratio 60 1); ("Second", Ratio 1 1); ("Millisecond", Ratio 1 1000); ("Microsecond", Ratio 1 1000000); ("Nanosecond", Ratio 1 1000000000); ("Femtosecond", Ratio 1 1000000000000000);
  ("Ampere", Ratio 1 1); ("Kelvin", Ratio 1 1); ("Celsius", Tag CelsiusTag); ("Fahrenheit", Tag FahrenheitTag); ("Mole", Ratio 1 1); ("Candela", Ratio 1 1);
  ("Radian", Ratio 1 1); ("Degree", Tag DegreeTag); ("Arcminute", Tag ArcMinuteTag); ("Arcsecond", Tag ArcSecondTag); ("Steradian", Ratio 1 1); ("SquareDegree", Tag SquareDegreeTag);
  ("Diopter", Ratio 1 1); ("Millidiopter", Ratio 1 1000); ("Microdiopter", Ratio 1 1000000);
  ("MetersPerSecond", Ratio 1 1); ("KilometersPerSecond", Ratio 1000 1); ("MilesPerHour", Ratio 44704 100000); ("KilometersPerHour", Ratio 1000 3600);
  ("RadiansPerSecond", Ratio 1 1); ("DegreesPerSecond", Tag DegreeTag);
  ("Hertz", Ratio 1 1); ("Kilohertz", Ratio 1000 1); ("Megahertz", Ratio 1000000 1); ("Gigahertz", Ratio 1000000000 1); ("Terahertz", Ratio 1000000000000 1);
  ("Newton", Ratio 1 1); ("Kilonewton", Ratio 1000 1); ("Pascal", Ratio 1 1); ("Kilopascal", Ratio 1000 1);
  ("Joule", Ratio 1 1); ("Kilojoule", Ratio 1000 1); ("Megajoule", Ratio 1000000 1); ("ElectronVolt", Tag ElectronVoltTag);
  ("SquareMeter", Ratio 1 1); ("SquareCentimeter", Ratio 1 10000); ("SquareMillimeter", Ratio 1 1000000);
  ("Milliwatt", Ratio 1 1000); ("Watt", Ratio 1 1); ("Kilowatt", Ratio 1000 1); ("Megawatt", Ratio 1000000 1); ("Gigawatt", Ratio 1000000000 1); ("Coulomb", Ratio 1 1)]%string%Z.
Definition unit_named (n : string) : option uscale := option_map snd (List.find (fun p => String.eqb (fst p) n) named_units).

(** Times: seconds of TDB past J2000 *)
(* the SPICE routines used, as functions: unitim(epoch, from, to) and deltet(epoch, kind) *)
Record spice_time := SpiceTime { unitim : R -> string -> string -> R; deltet : R -> string -> R }.
Inductive time_scale := TDB | TT | TAI | UTC.
Definition J2000_JD : R := 2451545.
Definition MJD_OFFSET : R := 24000005 / 10.
Definition SECONDS_PER_DAY : R := 86400.
Definition SECONDS_PER_JULIAN_YEAR : R := 36525 / 100 * SECONDS_PER_DAY.
(* from_julian_date, time.ipp:69-97 *)
Definition from_jd (sp : spice_time) (jd : R) (s : time_scale) : R :=
  let x := (jd - J2000_JD) * SECONDS_PER_DAY in
  match s with TDB => x | TT => unitim sp x "TT" "TDB" | TAI => unitim sp x "TAI" "TDB" | UTC => x + deltet sp x "UTC" end.
(* the switch of to_julian_date, time.ipp:142-166, and of julian_years_since_j2000, 205-230 *)
Definition seconds_in (sp : spice_time) (et : R) (s : time_scale) : R :=
  match s with TDB => et | TT => unitim sp et "TDB" "TT" | TAI => unitim sp et "TDB" "TAI" | UTC => et - deltet sp et "ET" end.
Definition to_jd (sp : spice_time) (et : R) (s : time_scale) : R := J2000_JD + seconds_in sp et s / SECONDS_PER_DAY.
(* from_modified_julian_date 109-112, to_modified_julian_date 177-180, julian_years_since_j2000 203-233 *)
Definition from_mjd (sp : spice_time) (mjd : R) (s : time_scale) : R := from_jd sp (mjd + MJD_OFFSET) s.
Definition to_mjd (sp : spice_time) (et : R) (s : time_scale) : R := to_jd sp et s - MJD_OFFSET.
Definition julian_years (sp : spice_time) (et : R) (s : time_scale) : R := seconds_in sp et s / SECONDS_PER_JULIAN_YEAR.

(** Intervals, interval.hpp:34-97 *)
Record interval := Interval { i_start : R; i_end : R }.
Definition from_centered (c d : R) : interval := Interval (c + - d / 2) (c + d / 2).
Definition from_start (t d : R) : interval := Interval t (t + d).
Definition center (i : interval) : R := i_start i + (i_end i - i_start i) / 2.
Definition duration (i : interval) : R := i_end i - i_start i.
(* samples, interval.hpp:78-94: static_cast<float>(N - 1) rounds *)
Definition samples (i : interval) (n : nat) : outcome (list R) :=
  match n with
  | O => Throws
  | 1%nat => Ok [center i]
  | _ => let dt := (i_end i - i_start i) / fl (INR (n - 1)) in Ok (map (fun k => i_start i + INR k * dt) (seq 0 n))
  end.
