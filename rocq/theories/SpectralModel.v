(* Model of spectral bins (include/huira_impl/core/spectral_bins.ipp) and of the physics helpers
   (include/huira_impl/core/physics.ipp). Floats and doubles are exact reals: overflow, NaN and rounding are not modelled,
   and reading an unset array element or outside an array is UB. *)
From Coq Require Import Reals List Lra.
From Verif Require Import Common Vec3.
Import ListNotations.
Open Scope R_scope.

(* Bin, spectral_bins.hpp:13-26 *)
Record bin := Bin { b_min : R; b_max : R }.
Definition b_center (b : bin) : R := (b_min b + b_max b) / 2.
Definition b_width (b : bin) : R := b_max b - b_min b.
Definition nano : R := / 10 ^ 9.
(* initialize_uniform_static_ 738-753, initialize_pairs_static_ 762-771, initialize_edges_static_ 781-790 *)
Definition init_uniform (n : nat) (lo hi : R) : list bin :=
  let min_val := lo * nano in let step := (hi * nano - min_val) / INR n in
  map (fun i => Bin (min_val + INR i * step) (min_val + INR (i + 1) * step)) (seq 0 n).
Definition init_pairs (n : nat) (args : list R) : list bin := map (fun i => Bin (nth (2 * i) args 0 * nano) (nth (2 * i + 1) args 0 * nano)) (seq 0 n).
Definition init_edges (n : nat) (args : list R) : list bin := map (fun i => Bin (nth i args 0 * nano) (nth (i + 1) args 0 * nano)) (seq 0 n).
(* the two checks of initialize_bins_static_, 711-728 *)
Definition inverted (b : bin) : bool := Rleb (b_max b) (b_min b).
Definition overlap (a b : bin) : bool := Rltb (b_min a) (b_max b) && Rltb (b_min b) (b_max a).
Fixpoint any_overlap (l : list bin) : bool := match l with [] => false | b :: t => existsb (overlap b) t || any_overlap t end.
Definition check_bins (l : list bin) : outcome (list bin) := if existsb inverted l || any_overlap l then Throws else Ok l.
(* initialize_bins_static_, 693-731: Throws is a compile-time error *)
Definition init_bins (n : nat) (args : list R) : outcome (list bin) :=
  if Nat.eqb (List.length args) 2 then if Nat.eqb n 0 then Throws else check_bins (init_uniform n (nth 0 args 0) (nth 1 args 0))
  else if Nat.eqb (List.length args) (2 * n) then check_bins (init_pairs n args)
  else if Nat.eqb (List.length args) (n + 1) then check_bins (init_edges n args)
  else Throws.

Definition sum (l : list R) : R := fold_left Rplus l 0.
(* from_total, 218-236 *)
Definition from_total (l : list bin) (total : R) : list R :=
  let w := sum (map b_width l) in map (fun b => total * (b_width b / w)) l.
(* total 243-251, min 293-306, max 273-286, integrate 316-325, integrate_over_band 327-347 *)
Definition total (v : list R) : R := sum v.
Definition vmax (v : list R) : R := match v with [] => 0 | x :: t => fold_left (fun m y => if Rltb m y then y else m) t x end.
Definition vmin (v : list R) : R := match v with [] => 0 | x :: t => fold_left (fun m y => if Rltb y m then y else m) t x end.
Definition integrate_bins (l : list bin) (v : list R) : R := sum (map (fun p => snd p * b_width (fst p)) (combine l v)).
Definition integrate_over_band (l : list bin) (v : list R) (lo hi : R) : R :=
  fold_left (fun acc p => let b := fst p in
    if Rleb (b_max b) lo || Rleb hi (b_min b) then acc else acc + snd p * (Rmin (b_max b) hi - Rmax (b_min b) lo)) (combine l v) 0.
(* valid 356-373, valid_ratio 382-397 (the NaN and infinity checks have no counterpart) *)
Definition valid (v : list R) : bool := forallb (fun x => negb (Rltb x 0)) v.
Definition valid_ratio (v : list R) : bool := forallb (fun x => negb (Rltb x 0 || Rltb 1 x)) v.
(* the arithmetic operators 412-446 and 564-598 on two spectra, 451-489 and 603-668 with a number *)
Definition zip (f : R -> R -> R) (a b : list R) : list R := map (fun p => f (fst p) (snd p)) (combine a b).
Definition each (f : R -> R) (a : list R) : list R := map f a.
(* the initializer_list constructor, 37-47: elements beyond a short list stay unset (None) *)
Definition init_list (n : nat) (l : list R) : list (option R) :=
  match l with
  | [x] => repeat (Some x) n
  | _ => map (fun i => nth_error l i) (seq 0 n)
  end.
(* convert_rgb_to_spectral, 793-827 (not modelled: for TSpectral = RGB itself it is the identity); RGB = SpectralBins<3, 600, 750, 500, 600, 380, 500>, spectral_bins.hpp:204 *)
Definition rgb_bins : list bin := [Bin (600 * nano) (750 * nano); Bin (500 * nano) (600 * nano); Bin (380 * nano) (500 * nano)].
Definition convert_rgb (l : list bin) (rgb : list R) : list R :=
  let d := Bin 0 0 in
  let rgb_min := b_min (nth 0 rgb_bins d) in let rgb_max := b_max (nth 0 rgb_bins d) in
  let ov := Rmin (b_max (nth (List.length l - 1) l d)) rgb_max - Rmax (b_min (nth 0 l d)) rgb_min in
  if Rltb (1 / 10) (ov / (rgb_max - rgb_min)) then map (fun b => integrate_over_band rgb_bins rgb (b_min b) (b_max b) / b_width b) l
  else map (fun _ => (nth 0 rgb 0 + nth 1 rgb 0 + nth 2 rgb 0) / 3) l.

(** integrate_over_data, 82-207 *)
(* lerp_value 106-110 *)
Definition lerp_value (w v : list R) (lo hi : nat) (t : R) : R :=
  let alpha := (t - nth lo w 0) / (nth hi w 0 - nth lo w 0) in nth lo v 0 * (1 - alpha) + nth hi v 0 * alpha.
(* lower_bound_idx 113-125; the loop runs at most count times *)
Fixpoint lower_bound_loop (w : list R) (target : R) (fuel first count : nat) : nat :=
  match fuel with
  | O => first
  | S f => if Nat.eqb count 0 then first else
      let step := Nat.div count 2 in let mid := (first + step)%nat in
      if Rltb (nth mid w 0) target then lower_bound_loop w target f (mid + 1) (count - (step + 1)) else lower_bound_loop w target f first step
  end.
Definition lower_bound (w : list R) (target : R) : nat := lower_bound_loop w target (List.length w) 0 (List.length w).
(* the interior loop, 175-184: the running integral and the previous knot, if any *)
Fixpoint walk (w v : list R) (hi : R) (fuel k : nat) (integral : R) (prev : option (R * R)) : R * option (R * R) :=
  match fuel with
  | O => (integral, prev)
  | S f => if Nat.ltb k (List.length w) && Rltb (nth k w 0) hi then
      let cur := (nth k w 0, nth k v 0) in
      let integral' := match prev with Some p => integral + / 2 * (snd p + snd cur) * (fst cur - fst p) | None => integral end in
      walk w v hi f (k + 1) integral' (Some cur)
    else (integral, prev)
  end.
(* the body of the loop over bins, 129-204, for bin edges in nanometres *)
Definition average_bin (w v : list R) (lo hi : R) : R :=
  let M := List.length w in
  let i := lower_bound w lo in
  if Nat.eqb i M then 0
  else if Rleb hi (nth i w 0) && Nat.eqb i 0 then 0
  else if Nat.ltb 0 i && Rleb hi (nth i w 0) then / 2 * (lerp_value w v (i - 1) i lo + lerp_value w v (i - 1) i hi)
  else
    let prev := if Nat.ltb 0 i && Rltb lo (nth i w 0) then Some (lo, lerp_value w v (i - 1) i lo) else None in
    let r := walk w v hi M i 0 prev in
    let j := lower_bound w hi in
    let right := if Nat.ltb j M then lerp_value w v (j - 1) j hi else nth (M - 1) v 0 in
    let integral := match snd r with Some p => fst r + / 2 * (snd p + right) * (hi - fst p) | None => fst r end in
    integral / (hi - lo).
Fixpoint ascending (w : list R) : bool := match w with a :: (b :: _) as t => Rltb a b && ascending t | _ => true end.
Definition integrate_over_data (l : list bin) (w v : list R) : outcome (list R) :=
  if negb (Nat.eqb (List.length w) (List.length v)) then Throws
  else if Nat.eqb (List.length w) 0 then Throws
  else if negb (ascending w) then Throws
  else Ok (map (fun b => average_bin w v (b_min b * 10 ^ 9) (b_max b * 10 ^ 9)) l).

(** physics.ipp *)
Definition H_PLANCK : R := 662607015 / 10 ^ 42.
Definition SPEED_OF_LIGHT : R := 299792458.
Definition K_BOLTZ : R := 1380649 / 10 ^ 29.
(* photon_energy 23-27, plancks_law 35-50 (one wavelength) *)
Definition photon_energy (lam : R) : R := H_PLANCK * SPEED_OF_LIGHT / lam.
Definition planck (temp lam : R) : R :=
  let c1 := 2 * H_PLANCK * SPEED_OF_LIGHT * SPEED_OF_LIGHT in let c2 := H_PLANCK * SPEED_OF_LIGHT / K_BOLTZ in
  (c1 / lam ^ 5) / (exp (c2 / (lam * temp)) - 1).
(* linspace 60-69: for one sample the step is a division by zero and the sample is a NaN; None stands for it *)
Definition linspace (lo hi : R) (n : nat) : list (option R) :=
  match n with
  | 1%nat => [None]
  | _ => let step := (hi - lo) / INR (n - 1) in map (fun i => Some (lo + INR i * step)) (seq 0 n)
  end.
(* integrate 221-230: x.size() - 1 wraps around for an empty vector, so that the loop reads outside it; y[i] outside y is UB *)
Definition trapezoid (x y : list R) : R := fold_left (fun acc i => acc + / 2 * (nth i y 0 + nth (i + 1) y 0) * (nth (i + 1) x 0 - nth i x 0)) (seq 0 (List.length x - 1)) 0.
Definition integrate (x y : list R) : outcome R := if Nat.eqb (List.length x) 0 then UB else if Nat.eqb (List.length x) 1 then Ok 0 else if Nat.ltb (List.length y) (List.length x) then UB else Ok (trapezoid x y).
Fixpoint all_some {A} (l : list (option A)) : option (list A) := match l with [] => Some [] | x :: t => match x, all_some t with Some a, Some r => Some (a :: r) | _, _ => None end end.
(* black_body 78-92, one bin: Ok None is a NaN. With one sample integrate() sums nothing *)
Definition black_body_bin (temp : R) (b : bin) (steps : nat) : outcome R :=
  match all_some (linspace (b_min b) (b_max b) steps) with
  | Some lam => integrate lam (map (planck temp) lam)
  | None => Ok 0
  end.
(* v_band_irradiance 142-156: std::pow(10, -0.4 m) *)
Definition v_band_irradiance (m : R) : R := 875 * 10 ^ 7 * Rpower 10 (- (4 / 10) * m).
(* compute_aberrated_direction 238-267 *)
Definition aberrated (u v_obs : vec3) : outcome vec3 :=
  let beta := vscale (/ SPEED_OF_LIGHT) v_obs in
  let b2 := dot beta beta in
  if Rltb b2 (999999 / 1000000) then
    let gamma := 1 / sqrt (1 - b2) in
    let k := dot u beta in
    let num := vadd (vadd u beta) (vscale (gamma / (1 + gamma) * k) beta) in
    Ok (vscale (/ (gamma * (1 + k))) num)
  else Throws.
