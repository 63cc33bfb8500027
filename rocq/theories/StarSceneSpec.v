(* What "the stars of a scene" means, from the calls a user made and how they ended (C152). *)
From Verif Require Import Common Vec3 SpectralModel StarSceneModel.
From Coq Require Import List Reals Permutation.
Import ListNotations.
Open Scope R_scope.

(* a call that replaces the stars, and did not throw *)
Definition is_load (c : call) : Prop := match c with UpdateEpoch _ => False | _ => True end.
Definition no_load_in (tr : list (call * outcome unit)) : Prop := forall c, In (c, Ok tt) tr -> ~ is_load c.
(* [tr] = ... [c] ... where [c] is the last call that replaced the stars and [after] is what came after it *)
Definition last_load (tr : list (call * outcome unit)) (c : call) (after : list (call * outcome unit)) : Prop :=
  exists before, tr = (before ++ (c, Ok tt) :: after)%list /\ is_load c /\ no_load_in after.
(* the last epoch asked for in updates that did not throw, or else [t] *)
Fixpoint last_epoch (t : R) (after : list (call * outcome unit)) : R :=
  match after with [] => t | (UpdateEpoch u, Ok tt) :: rest => last_epoch u rest | _ :: rest => last_epoch t rest end.
(* the number of years is the same function whenever SPICE answers: kernels may be missing, but do not contradict each other *)
Definition one_calendar (years : R -> R) (w : world) : Prop := forall t, w_years w t = None \/ w_years w t = Some (years t).
(* a moment whose years are known can be written in the log, or nothing is logged *)
Definition log_works (w : world) : Prop := w_log w = true -> forall t, w_years w t <> None -> w_utc w t = true.
(* every schedule of TBB: each index once *)
Definition any_schedule (w : world) : Prop := forall n, Permutation (w_order w n) (seq 0 n).
