(* Model of TrajectoryArc, include/huira_impl/render/trajectory_arc.ipp, in exact real arithmetic and per
   component (the code treats x, y, z independently). Arrays are functions from indices; a cell that the
   code updates in place is modelled by its final value, which is the value every later read sees. *)
From Verif Require Import Vec3.

(** Polynomial arcs *)
(* build_polynomial_, trajectory_arc.ipp:71-93, for 1, 2 or 3 samples *)
Definition build_polynomial (y : list R) : list R :=
  match y with
  | [p0] => [p0]
  | [p0; p1] => [p0; p1 - p0]
  | p0 :: p1 :: p2 :: _ => [p0; -3 * p0 + 4 * p1 - p2; 2 * p0 - 4 * p1 + 2 * p2]
  | [] => []
  end.
(* evaluate_polynomial_, trajectory_arc.ipp:167-175: Horner from the last coefficient *)
Definition evaluate_polynomial (c : list R) (t : R) : R :=
  match rev c with
  | [] => 0
  | last :: r => fold_left (fun res k => res * t + k) r last
  end.

(** Splines *)
Section Spline.
Variable n : nat.             (* number of samples, n >= 4 *)
Variable y : nat -> R.        (* sample i *)

(* knots_, trajectory_arc.ipp:112-115 *)
Definition knot (i : nat) : R := INR i / INR (n - 1).
(* h, trajectory_arc.ipp:117 *)
Definition hh : R := knot 1 - knot 0.
(* number of interior points, trajectory_arc.ipp:129 *)
Definition interior : nat := (n - 2)%nat.
(* right-hand side before elimination, trajectory_arc.ipp:133-136 *)
Definition rhs0 (i : nat) : R := 6 / hh * (y (i + 2) - 2 * y (i + 1) + y i).
(* diag after elimination, trajectory_arc.ipp:138-144 *)
Fixpoint diag (i : nat) : R :=
  match i with O => 4 * hh | S j => 4 * hh - hh / diag j * hh end.
(* rhs after elimination, trajectory_arc.ipp:141-145 *)
Fixpoint rhs (i : nat) : R :=
  match i with O => rhs0 0 | S j => rhs0 (S j) - hh / diag j * rhs j end.
(* back substitution, trajectory_arc.ipp:147-151: backs k is interior_M[interior - 1 - k] *)
Fixpoint backs (k : nat) : R :=
  match k with
  | O => rhs (interior - 1) / diag (interior - 1)
  | S j => (rhs (interior - 1 - S j) - hh * backs j) / diag (interior - 1 - S j)
  end.
(* M, trajectory_arc.ipp:130 and 153-155 *)
Definition M (i : nat) : R :=
  if Nat.eqb i 0 then 0 else if Nat.leb (n - 1) i then 0 else backs (interior - 1 - (i - 1)).
(* segment coefficients, trajectory_arc.ipp:158-163 *)
Definition seg_a (i : nat) : R := y i.
Definition seg_b (i : nat) : R := (y (i + 1) - y i) / hh - hh * (2 * M i + M (i + 1)) / 6.
Definition seg_c (i : nat) : R := M i / 2.
Definition seg_d (i : nat) : R := (M (i + 1) - M i) / (6 * hh).

(* the segment search, trajectory_arc.ipp:182-189: i runs over 0 .. segments-2; returns the last seg *)
Fixpoint seg_search (t : R) (fuel i seg : nat) : nat :=
  match fuel with
  | O => seg
  | S f => if Rleb (knot (i + 1)) t then seg_search t f (S i) (S i) else seg
  end.
Definition find_seg (t : R) : nat := Nat.min (seg_search t (n - 2) 0 0) (n - 2).

(* evaluate_spline_, trajectory_arc.ipp:177-194 *)
Definition evaluate_spline (t0 : R) : R :=
  let t := Rmin (Rmax t0 0) 1 in
  let i := find_seg t in
  let u := t - knot i in
  seg_a i + u * (seg_b i + u * (seg_c i + u * seg_d i)).
End Spline.

(** Root finders: results are lists of parameters; None stands for a NaN intermediate *)
(* eps, trajectory_arc.ipp:256 *)
Definition reps : R := 1 / 10000000000.
(* std::clamp *)
Definition clampR (t lo hi : R) : R := if Rltb t lo then lo else if Rltb hi t then hi else t.
(* the range test and clamp used by all finders, e.g. trajectory_arc.ipp:261-263 *)
Definition keep (t lo hi : R) : list R :=
  if (Rleb (lo - reps) t && Rleb t (hi + reps))%bool then [clampR t lo hi] else [].

(* solve_linear_, trajectory_arc.ipp:254-265 *)
Definition solve_linear (a b lo hi : R) : list R :=
  if Rltb (Rabs a) reps then [] else keep (- b / a) lo hi.

(* "if (roots.empty() || abs(t2 - roots.back()) > eps) push", trajectory_arc.ipp:299-303 *)
Definition keep2 (roots : list R) (t2 lo hi : R) : list R :=
  if (Rleb (lo - reps) t2 && Rleb t2 (hi + reps))%bool then
    match rev roots with
    | [] => roots ++ [clampR t2 lo hi]
    | l :: _ => if Rltb reps (Rabs (t2 - l)) then roots ++ [clampR t2 lo hi] else roots
    end
  else roots.

(* std::copysign(s, b) with s >= 0 (negative zero is not distinguished from zero) *)
Definition copysign (s b : R) : R := if Rltb b 0 then - s else s.

(* solve_quadratic_, trajectory_arc.ipp:267-307 *)
Definition solve_quadratic (a b c lo hi : R) : list R :=
  if Rltb (Rabs a) reps then solve_linear b c lo hi
  else
    let disc := b * b - 4 * a * c in
    if Rltb disc 0 then []
    else if Rltb disc reps then keep (- b / (2 * a)) lo hi
    else
      let q := - (1 / 2) * (b + copysign (sqrt disc) b) in
      let t1 := q / a in
      let t2 := c / q in
      if Rltb t2 t1 then keep2 (keep t2 lo hi) t1 lo hi else keep2 (keep t1 lo hi) t2 lo hi.

(* float square root: NaN (None) for a negative argument *)
Definition fsqrt (x : R) : option R := if Rltb x 0 then None else Some (sqrt x).
(* range test on a possibly NaN value: every comparison with NaN is false *)
Definition keep_opt (t : option R) (lo hi : R) : list R := match t with Some t => keep t lo hi | None => [] end.
(* insertion sort stands for std::sort on the at most three roots, trajectory_arc.ipp:388 *)
Fixpoint insertR (x : R) (l : list R) : list R :=
  match l with [] => [x] | h :: t => if Rleb x h then x :: l else h :: insertR x t end.
Definition sortR (l : list R) : list R := fold_right insertR [] l.

(* solve_cubic_, trajectory_arc.ipp:314-390 *)
Definition solve_cubic (a b c d lo hi : R) : list R :=
  if Rltb (Rabs a) reps then solve_quadratic b c d lo hi
  else
    let p := b / a in let q := c / a in let r := d / a in
    let A := q - p * p / 3 in
    let B := r - p * q / 3 + 2 * (p * p) * p / 27 in
    let disc := -4 * A * A * A - 27 * B * B in
    let offset := - p / 3 in
    sortR
     (if Rltb reps disc then
        let m := 2 * sqrt (- A / 3) in
        let theta := acos (3 * B / (A * m)) / 3 in
        flat_map (fun k => keep (m * cos (theta - 2 * PI * INR k / 3) + offset) lo hi) [0; 1; 2]%nat
      else if Rltb disc (- reps) then
        match fsqrt (- A / 3) with
        | None => keep_opt None lo hi       (* A > 0: sqrtQ3, hence cosh_val, asinh_val, u, t are NaN *)
        | Some s =>
            let cv := Rabs B / (s * s * s) * (3 / 2) in
            if Rltb A 0 then
              let ac := ln (cv + sqrt (cv * cv - 1)) in
              keep (-2 * copysign s B * cosh (ac / 3) + offset) lo hi
            else keep_opt None lo hi        (* A = 0: division by zero gives infinities and 0 * inf = NaN *)
        end
      else if Rltb (Rabs B) reps then keep offset lo hi
      else
        let u1 := 3 * B / A in
        let u2 := - u1 / 2 in
        keep2 (keep (u1 + offset) lo hi) (u2 + offset) lo hi).
