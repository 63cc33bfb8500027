(* Model of Time in double precision, include/huira_impl/core/time.ipp:41-50, 69-97, 108-111, 123-165, 174-177, 186-239, 301-309, TDB scale
   (the scale in which a Time is stored; no SPICE call is made), and of Interval, include/huira/core/interval.hpp:34-97.
   Every operation rounds to nearest even in binary64; overflow does not occur in the ranges used. *)
From Coq Require Import Reals ZArith.
From Flocq Require Import Core.
Open Scope R_scope.

(* what a double operation returns for the exact result x *)
Definition dbl (x : R) : R := round radix2 (FLT_exp (-1074) 53) ZnearestE x.
Definition is_double (x : R) : Prop := generic_format radix2 (FLT_exp (-1074) 53) x.

(* time.hpp:118-132 *)
Definition J2000_JD : R := 2451545.
Definition SECONDS_PER_DAY : R := 86400.
Definition SECONDS_PER_JULIAN_YEAR : R := 31557600.
Definition MJD_OFFSET : R := 24000005 / 10.
(* from_julian_date(jd, TDB), time.ipp:69-77 *)
Definition from_jd (jd : R) : R := dbl (dbl (jd - J2000_JD) * SECONDS_PER_DAY).
(* from_modified_julian_date, time.ipp:108-111 *)
Definition from_mjd (mjd : R) : R := from_jd (dbl (mjd + MJD_OFFSET)).
(* to_julian_date(TDB), time.ipp:133-165 *)
Definition to_jd (et : R) : R := dbl (J2000_JD + dbl (et / SECONDS_PER_DAY)).
(* to_modified_julian_date, time.ipp:174-177 *)
Definition to_mjd (et : R) : R := dbl (to_jd et - MJD_OFFSET).
(* julian_years_since_j2000(TDB), time.ipp:203-239 *)
Definition years (et : R) : R := dbl (et / SECONDS_PER_JULIAN_YEAR).
(* operator+ and operator-, time.ipp:301-309 *)
Definition time_add (et d : R) : R := dbl (et + d).
Definition time_sub (a b : R) : R := dbl (a - b).
(* Interval::from_start(t, d).duration(), interval.hpp *)
Definition start_duration (t d : R) : R := time_sub (time_add t d) t.
