(* Specification vocabulary for the renderer. *)
From Verif Require Import Vec3 RenderModel.

Fixpoint sum (l : list R) : R := match l with [] => 0 | x :: r => x + sum r end.
(* strictly increasing *)
Inductive increasing : list R -> Prop :=
| inc_nil : increasing []
| inc_one : forall x, increasing [x]
| inc_cons : forall x y l, x < y -> increasing (y :: l) -> increasing (x :: y :: l).
(* neighbouring parameters are at most d pixels apart *)
Fixpoint steps_within (pix : R -> R * R) (d : R) (l : list R) : Prop :=
  match l with
  | a :: ((b :: _) as r) => pdist pix a b <= d /\ steps_within pix d r
  | _ => True
  end.
(* fraction of the exposure covered by a list of disjoint intervals *)
Definition visible_fraction (l : list (R * R)) : R := sum (map (fun i => snd i - fst i) l).

Definition average (l : list R) : R := sum l / INR (List.length l).
(* sum of squared deviations from the average *)
Definition sq_dev (l : list R) : R := sum (map (fun x => (x - average l) * (x - average l)) l).
Fixpoint accepted (xs : list (option R)) : list R :=
  match xs with [] => [] | Some x :: r => x :: accepted r | None :: r => accepted r end.

(* a tile program that touches neither the shared time nor the shared sampler *)
Definition local_only (p : list action) : Prop := forall a, In a p -> a = Trace.
