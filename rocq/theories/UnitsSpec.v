(* Specification vocabulary for units, times and intervals. *)
From Coq Require Import Reals ZArith List String.
From Verif Require Import Common Vec3 UnitsModel.
Import ListNotations.
Open Scope R_scope.

(* a usable scale: a ratio with non-zero numerator and denominator, or any tag *)
Definition usable (s : uscale) : Prop := match s with Ratio n d => n <> 0%Z /\ d <> 0%Z | Tag _ => True end.
(* a scale whose zero is the physical zero: everything but Celsius and Fahrenheit *)
Definition linear (s : uscale) : Prop := s <> Tag CelsiusTag /\ s <> Tag FahrenheitTag.
(* a positive unit size: ratios as they occur in units.hpp *)
Definition positive (s : uscale) : Prop := match s with Ratio n d => (0 < n /\ 0 < d)%Z | Tag _ => True end.
(* the size of a unit in SI, by its definition outside the code: what one unit measures *)
Definition unit_size (name : string) : option R :=
  let inch := 254 / 10000 in let foot := 12 * inch in let yard := 3 * foot in let mile := 1760 * yard in
  let minute := 60 in let hour := 60 * minute in let day := 24 * hour in let degree := 2 * PI / 360 in
  let table : list (string * R) := [
  ("Kilometer", 1000); ("Meter", 1); ("Centimeter", / 100); ("Millimeter", / 1000); ("Micrometer", / 10 ^ 6); ("Nanometer", / 10 ^ 9); ("AstronomicalUnit", 149597870700);
  ("Foot", foot); ("Yard", yard); ("Mile", mile); ("Kilogram", 1); ("Gram", / 1000); ("Milligram", / 10 ^ 6);
  ("SiderealDay", 861640905 / 10000); ("Day", day); ("Hour", hour); ("Minute", minute); ("Second", 1); ("Millisecond", / 1000); ("Microsecond", / 10 ^ 6); ("Nanosecond", / 10 ^ 9); ("Femtosecond", / 10 ^ 15);
  ("Ampere", 1); ("Kelvin", 1); ("Mole", 1); ("Candela", 1); ("Radian", 1); ("Degree", degree); ("Arcminute", degree / 60); ("Arcsecond", degree / 60 / 60); ("Steradian", 1); ("SquareDegree", degree * degree);
  ("Diopter", 1); ("Millidiopter", / 1000); ("Microdiopter", / 10 ^ 6); ("MetersPerSecond", 1); ("KilometersPerSecond", 1000); ("MilesPerHour", mile / hour); ("KilometersPerHour", 1000 / hour);
  ("RadiansPerSecond", 1); ("DegreesPerSecond", degree); ("Hertz", 1); ("Kilohertz", 1000); ("Megahertz", 10 ^ 6); ("Gigahertz", 10 ^ 9); ("Terahertz", 10 ^ 12);
  ("Newton", 1); ("Kilonewton", 1000); ("Pascal", 1); ("Kilopascal", 1000); ("Joule", 1); ("Kilojoule", 1000); ("Megajoule", 10 ^ 6); ("ElectronVolt", 1602176634 / 10 ^ 9 / 10 ^ 19);
  ("SquareMeter", 1); ("SquareCentimeter", / 100 * / 100); ("SquareMillimeter", / 1000 * / 1000); ("Milliwatt", / 1000); ("Watt", 1); ("Kilowatt", 1000); ("Megawatt", 10 ^ 6); ("Gigawatt", 10 ^ 9); ("Coulomb", 1)]%string in
  option_map snd (List.find (fun p => String.eqb (fst p) name) table).
(* SPICE's conversions undo each other *)
Definition faithful (sp : spice_time) : Prop :=
  (forall x s, unitim sp (unitim sp x s "TDB") "TDB" s = x) /\ (forall x s, unitim sp (unitim sp x "TDB" s) s "TDB" = x) /\
  (forall x, deltet sp (x + deltet sp x "UTC") "ET" = deltet sp x "UTC") /\ (forall x, deltet sp (x - deltet sp x "ET") "UTC" = deltet sp x "ET").
(* n equally spaced values from a to b *)
Definition evenly_spaced (l : list R) (n : nat) (a b : R) : Prop :=
  List.length l = n /\ forall k, (k < n)%nat -> nth k l 0 = a + INR k * ((b - a) / INR (n - 1)).
