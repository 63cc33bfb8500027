(* Specification vocabulary for spectra. *)
From Coq Require Import Reals List.
From Verif Require Import Common Vec3 SpectralModel.
From Coquelicot Require Import Coquelicot.
Import ListNotations.
Open Scope R_scope.

(* plain sum *)
Fixpoint rsum (l : list R) : R := match l with [] => 0 | x :: t => x + rsum t end.
Definition inside (b : bin) (x : R) : Prop := b_min b < x < b_max b.
(* the curve through the samples: straight between neighbours, constant after the last one *)
Fixpoint curve (pts : list (R * R)) (x : R) : R :=
  match pts with
  | (l0, v0) :: (((l1, v1) :: _) as t) => if Rlt_dec x l1 then v0 + (v1 - v0) * ((x - l0) / (l1 - l0)) else curve t x
  | (_, v0) :: nil => v0
  | nil => 0
  end.
(* the curve is 0 outside the sampled range *)
Definition sampled (pts : list (R * R)) (x : R) : R :=
  if Rle_dec (fst (hd (0, 0) pts)) x then if Rle_dec x (fst (last pts (0, 0))) then curve pts x else 0 else 0.
Definition ascending_wavelengths (w : list R) : Prop := forall i, (S i < List.length w)%nat -> nth i w 0 < nth (S i) w 0.
(* the mean of f over [a, b] is m *)
Definition mean_of (f : R -> R) (a b m : R) : Prop := is_RInt f a b (m * (b - a)).
(* a step function of wavelength: the value of the bin that contains it *)
Fixpoint step_fn (l : list bin) (v : list R) (x : R) : R :=
  match l, v with
  | b :: l', y :: v' => (if Rle_dec (b_min b) x then if Rlt_dec x (b_max b) then y else 0 else 0) + step_fn l' v' x
  | _, _ => 0
  end.
