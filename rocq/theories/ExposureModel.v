(* Model of Interval in double precision, include/huira/core/interval.hpp:34-97, over the Time of JulianModel. Simplified: overflow does not occur. *)
From Coq Require Import Reals ZArith List.
From Verif Require Import Common Float32 JulianModel.
Import ListNotations.
Open Scope R_scope.

(* start and end, interval.hpp:37-38 *)
Record exposure := Exposure { e_start : R; e_end : R }.
(* from_centered, :47-51; -d / 2.0 and d / 2.0 round *)
Definition from_centered (c d : R) : exposure := Exposure (time_add c (dbl (- d / 2))) (time_add c (dbl (d / 2))).
(* from_start, :60-63 *)
Definition from_start (t d : R) : exposure := Exposure t (time_add t d).
(* center, :75 *)
Definition center (i : exposure) : R := time_add (e_start i) (dbl (dbl (e_end i - e_start i) / 2)).
(* duration, :94 *)
Definition duration (i : exposure) : R := dbl (e_end i - e_start i).
(* samples, :78-91; N - 1 becomes a float, i a double *)
Definition step (i : exposure) (n : nat) : R := dbl (time_sub (e_end i) (e_start i) / fl (INR (n - 1))).
Definition samples (i : exposure) (n : nat) : outcome (list R) :=
  match n with
  | O => Throws
  | 1%nat => Ok [center i]
  | _ => Ok (map (fun k => time_add (e_start i) (dbl (dbl (INR k) * step i n))) (seq 0 n))
  end.
