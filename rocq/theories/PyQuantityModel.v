(* Model of the Python classes of the scalar units: bindings/python/include/huira/units/units_py.ipp, of the unit arguments of the bound functions, and of arithmetic of Time with quantities
   (core/time_py.ipp). Doubles are real numbers; NaN, which the constructors reject, has no counterpart.
   What pybind11 does is modelled as documented: a bound function is called with the first overload whose arguments can be loaded; a py::object parameter loads anything; a parameter of a
   bound class loads objects of that class, or objects of a type registered with implicitly_convertible, by calling the Python constructor of the target class with the object;
   a double loads Python numbers. Operators bound with py::self give NotImplemented when the other operand cannot be loaded. *)
From Coq Require Import Reals ZArith List String Bool.
From Verif Require Import Common Vec3 UnitsModel UnitTextModel.
Import ListNotations.
Open Scope R_scope.

(* a bound class is a C++ type Quantity<Dim, Scale> *)
Record pyclass := Class { c_dim : dim; c_scale : uscale }.
Definition ReciprocalLength := ddiv Dimensionless Length.
Definition Temperature := Dim 0 0 0 0 1 0 0 0 0.
Definition AmountOfSubstance := Dim 0 0 0 0 0 1 0 0 0.
Definition Angle := Dim 0 0 0 0 0 0 0 1 0.
Definition AngularVelocity := ddiv Angle Time.
(* bind_units, units_py.ipp:195-318, with the types of units.hpp:46-226 *)
Definition bound : list (string * pyclass) := [
  ("Kilometer", Class Length (Ratio 1000 1)); ("Meter", Class Length (Ratio 1 1)); ("Centimeter", Class Length (Ratio 1 100));
  ("Millimeter", Class Length (Ratio 1 1000)); ("Micrometer", Class Length (Ratio 1 1000000)); ("Nanometer", Class Length (Ratio 1 1000000000));
  ("AstronomicalUnit", Class Length (Ratio 149597870700 1)); ("Foot", Class Length (Ratio 381 1250)); ("Yard", Class Length (Ratio 1143 1250));
  ("Mile", Class Length (Ratio 80467 50)); ("Kilogram", Class Mass (Ratio 1 1)); ("Gram", Class Mass (Ratio 1 1000)); ("Milligram", Class Mass (Ratio 1 1000000));
  ("SiderealDay", Class Time (Tag SiderealDayTag)); ("Day", Class Time (Ratio 86400 1)); ("Hour", Class Time (Ratio 3600 1)); ("Minute", Class Time (Ratio 60 1));
  ("Second", Class Time (Ratio 1 1)); ("Millisecond", Class Time (Ratio 1 1000)); ("Microsecond", Class Time (Ratio 1 1000000));
  ("Nanosecond", Class Time (Ratio 1 1000000000)); ("Femtosecond", Class Time (Ratio 1 1000000000000000)); ("Ampere", Class Current (Ratio 1 1));
  ("Kelvin", Class Temperature (Ratio 1 1)); ("Celsius", Class Temperature (Tag CelsiusTag)); ("Fahrenheit", Class Temperature (Tag FahrenheitTag));
  ("Mole", Class AmountOfSubstance (Ratio 1 1)); ("Candela", Class LuminousIntensity (Ratio 1 1)); ("Radian", Class Angle (Ratio 1 1));
  ("Degree", Class Angle (Tag DegreeTag)); ("Arcminute", Class Angle (Tag ArcMinuteTag)); ("Arcsecond", Class Angle (Tag ArcSecondTag));
  ("Steradian", Class SolidAngle (Ratio 1 1)); ("SquareDegree", Class SolidAngle (Tag SquareDegreeTag)); ("Diopter", Class ReciprocalLength (Ratio 1 1));
  ("Millidiopter", Class ReciprocalLength (Ratio 1 1000)); ("Microdiopter", Class ReciprocalLength (Ratio 1 1000000)); ("MetersPerSecond", Class Velocity (Ratio 1 1));
  ("KilometersPerSecond", Class Velocity (Ratio 1000 1)); ("MilesPerHour", Class Velocity (Ratio 1397 3125)); ("KilometersPerHour", Class Velocity (Ratio 5 18));
  ("RadiansPerSecond", Class AngularVelocity (Ratio 1 1)); ("DegreesPerSecond", Class AngularVelocity (Tag DegreeTag)); ("Hertz", Class Frequency (Ratio 1 1));
  ("Kilohertz", Class Frequency (Ratio 1000 1)); ("Megahertz", Class Frequency (Ratio 1000000 1)); ("Gigahertz", Class Frequency (Ratio 1000000000 1));
  ("Terahertz", Class Frequency (Ratio 1000000000000 1)); ("Newton", Class Force (Ratio 1 1)); ("Kilonewton", Class Force (Ratio 1000 1));
  ("Pascal", Class Pressure (Ratio 1 1)); ("Kilopascal", Class Pressure (Ratio 1000 1)); ("Joule", Class Energy (Ratio 1 1)); ("Kilojoule", Class Energy (Ratio 1000 1));
  ("Megajoule", Class Energy (Ratio 1000000 1)); ("ElectronVolt", Class Energy (Tag ElectronVoltTag)); ("SquareMeter", Class Area (Ratio 1 1));
  ("SquareCentimeter", Class Area (Ratio 1 10000)); ("SquareMillimeter", Class Area (Ratio 1 1000000)); ("Milliwatt", Class Power (Ratio 1 1000));
  ("Watt", Class Power (Ratio 1 1)); ("Kilowatt", Class Power (Ratio 1000 1)); ("Megawatt", Class Power (Ratio 1000000 1));
  ("Gigawatt", Class Power (Ratio 1000000000 1)); ("Coulomb", Class Charge (Ratio 1 1)); ("WattsPerMeterSquaredSteradian", Class Radiance (Ratio 1 1));
  ("WattsPerMeterSquared", Class Irradiance (Ratio 1 1)); ("WattsPerSteradian", Class RadiantIntensity (Ratio 1 1)); ("Lumen", Class LuminousFlux (Ratio 1 1))]%string%Z.
(* register_unit_conversions, units_py.ipp:326-389: target, sources *)
Definition conversions : list (string * list string) := [
  ("Meter", ["Kilometer"; "Centimeter"; "Millimeter"; "Micrometer"; "Nanometer"; "AstronomicalUnit"; "Foot"; "Yard"; "Mile"]);
  ("Kilogram", ["Gram"; "Milligram"]);
  ("Second", ["Femtosecond"; "Nanosecond"; "Microsecond"; "Millisecond"; "Minute"; "Hour"; "Day"; "SiderealDay"]);
  ("Kelvin", ["Celsius"; "Fahrenheit"]);
  ("Radian", ["Degree"; "Arcminute"; "Arcsecond"]);
  ("Steradian", ["SquareDegree"]);
  ("MetersPerSecond", ["KilometersPerSecond"; "MilesPerHour"; "KilometersPerHour"]);
  ("Hertz", ["Kilohertz"; "Megahertz"; "Gigahertz"; "Terahertz"]);
  ("Newton", ["Kilonewton"]);
  ("Pascal", ["Kilopascal"]);
  ("Joule", ["Kilojoule"; "Megajoule"; "ElectronVolt"]);
  ("Watt", ["Milliwatt"; "Kilowatt"; "Megawatt"; "Gigawatt"])]%string.
Definition class_named (n : string) : option pyclass := option_map snd (List.find (fun p => String.eqb (fst p) n) bound).

Definition tag_eqb (a b : utag) : bool :=
  match a, b with
  | SiderealDayTag, SiderealDayTag | DegreeTag, DegreeTag | ArcMinuteTag, ArcMinuteTag | ArcSecondTag, ArcSecondTag | SquareDegreeTag, SquareDegreeTag | CelsiusTag, CelsiusTag
  | FahrenheitTag, FahrenheitTag | ElectronVoltTag, ElectronVoltTag => true | _, _ => false end.
Definition scale_eqb (a b : uscale) : bool := match a, b with Ratio n d, Ratio n' d' => (n =? n')%Z && (d =? d')%Z | Tag t, Tag t' => tag_eqb t t' | _, _ => false end.
(* the same C++ type *)
Definition class_eqb (a b : pyclass) : bool := dim_eq (c_dim a) (c_dim b) && scale_eqb (c_scale a) (c_scale b).

(* Python objects: a quantity, a spectral quantity, a number, a Time, something else (None, a string, ...) *)
Inductive pyv := PQ (c : pyclass) (v : R) | PSpectral | PNum (x : R) | PTime (et : R) | POther.
Inductive pyerr := AttributeError | TypeError | RuntimeError.
Inductive res (A : Type) := Val (a : A) | Raise (e : pyerr).
Arguments Val {A}. Arguments Raise {A}.
Definition bind {A B} (r : res A) (k : A -> res B) : res B := match r with Val a => k a | Raise e => Raise e end.

(* other.attr("to_si")().cast<double>(): a spectral quantity has a to_si(), whose result is not a number *)
Definition si_of (v : pyv) : res R := match v with PQ c x => Val (to_si (c_scale c) x) | PSpectral => Raise RuntimeError | PNum _ | PTime _ | POther => Raise AttributeError end.
(* UnitType(SIUnit(x)): the converting constructor *)
Definition of_si (c : pyclass) (x : R) : pyv := PQ c (from_si (c_scale c) x).
(* detail::unit_from_py, units_py.ipp:18-25: how unit arguments declared as py::object are read *)
Definition unit_from_py (c : pyclass) (v : pyv) : res pyv := bind (si_of v) (fun x => Val (of_si c x)).

(* the Python constructors with one argument, :60-62 *)
Definition construct (c : pyclass) (v : pyv) : res pyv := match v with PNum x => Val (PQ c x) | _ => Raise TypeError end.
(* py::implicitly_convertible<From, To>, :31-36 *)
Definition registered (from to : pyclass) : bool :=
  existsb (fun p => match class_named (fst p) with Some t => class_eqb t to && existsb (fun n => match class_named n with Some f => class_eqb f from | None => false end) (snd p) | None => false end) conversions.
(* loading an argument declared with a unit type (new_sphere_light, scene_py.ipp:157-184; set_irradiance, unresolved_handle_py.ipp:23-27; the operand of py::self += py::self) *)
Definition load (c : pyclass) (v : pyv) : option pyv :=
  match v with
  | PQ c' x => if class_eqb c' c then Some v else if registered c' c then match construct c v with Val w => Some w | Raise _ => None end else None
  | _ => None
  end.
Definition typed_arg (c : pyclass) (v : pyv) : res pyv := match load c v with Some w => Val w | None => Raise TypeError end.

(* a quantity self of class c with value x. __add__ and __sub__, :74-97 *)
Definition py_add (c : pyclass) (x : R) (other : pyv) : res pyv := bind (si_of other) (fun y => Val (of_si c (to_si (c_scale c) x + y))).
Definition py_sub (c : pyclass) (x : R) (other : pyv) : res pyv := bind (si_of other) (fun y => Val (of_si c (to_si (c_scale c) x - y))).
(* the value of self after self += other, :99-100: __iadd__ when the operand can be loaded, else Python computes self + other. The flag: the object itself was changed *)
Definition py_iadd (c : pyclass) (x : R) (other : pyv) : res (pyv * bool) :=
  match load c other with Some (PQ _ y) => Val (PQ c (x + y), true) | _ => bind (py_add c x other) (fun v => Val (v, false)) end.
Definition py_isub (c : pyclass) (x : R) (other : pyv) : res (pyv * bool) :=
  match load c other with Some (PQ _ y) => Val (PQ c (x - y), true) | _ => bind (py_sub c x other) (fun v => Val (v, false)) end.
(* * and / with a number, :101-105; anything else gives NotImplemented on both sides *)
Definition py_mul (c : pyclass) (x : R) (other : pyv) : res pyv := match other with PNum k => Val (PQ c (x * k)) | _ => Raise TypeError end.
Definition py_div (c : pyclass) (x : R) (other : pyv) : res pyv := match other with PNum k => Val (PQ c (x / k)) | _ => Raise TypeError end.
(* comparisons, :107-141 *)
Definition Reqb (a b : R) : bool := if Req_EM_T a b then true else false.
Definition py_eq (c : pyclass) (x : R) (other : pyv) : res bool := bind (si_of other) (fun y => Val (Reqb (to_si (c_scale c) x) y)).
Definition py_lt (c : pyclass) (x : R) (other : pyv) : res bool := bind (si_of other) (fun y => Val (Rltb (to_si (c_scale c) x) y)).
Definition py_le (c : pyclass) (x : R) (other : pyv) : res bool := bind (si_of other) (fun y => Val (negb (Rltb y (to_si (c_scale c) x)))).
Definition py_gt (c : pyclass) (x : R) (other : pyv) : res bool := bind (si_of other) (fun y => Val (Rltb y (to_si (c_scale c) x))).
Definition py_ge (c : pyclass) (x : R) (other : pyv) : res bool := bind (si_of other) (fun y => Val (negb (Rltb (to_si (c_scale c) x) y))).

(* Time, core/time_py.ipp:92-121 *)
Definition Second := Class Time (Ratio 1 1).
Definition time_add (et : R) (d : pyv) : res pyv := bind (si_of d) (fun s => Val (PTime (et + s))).
Definition time_sub (et : R) (d : pyv) : res pyv := match d with PTime et' => Val (PQ Second (et - et')) | _ => bind (si_of d) (fun s => Val (PTime (et + - s))) end.

(* Python's variables and objects: a variable names an object. x = y; x += v *)
Record env := Env { vars : string -> nat; objs : nat -> pyv; next : nat }.
Definition assign (x y : string) (e : env) : env := Env (fun z => if String.eqb z x then vars e y else vars e z) (objs e) (next e).
Definition run_iadd (x : string) (v : pyv) (e : env) : res env :=
  match objs e (vars e x) with
  | PQ c a => bind (py_iadd c a v) (fun r => let (w, in_place) := r in
      if in_place then Val (Env (vars e) (fun o => if Nat.eqb o (vars e x) then w else objs e o) (next e))
      else Val (Env (fun z => if String.eqb z x then next e else vars e z) (fun o => if Nat.eqb o (next e) then w else objs e o) (S (next e))))
  | _ => Raise TypeError
  end.
