(* Specification vocabulary for clipping. *)
From Verif Require Import Vec3 FrustumModel.

(* inside all half spaces *)
Definition inside_all (normals : list vec3) (p : vec3) : Prop := forall n, In n normals -> 0 <= dot n p.

(* p = u a + v b + w c with non-negative weights summing to 1 *)
Definition weights (u v w : R) : Prop := 0 <= u /\ 0 <= v /\ 0 <= w /\ u + v + w = 1.
Definition comb (u v w : R) (a b c : vec3) : vec3 := vadd (vscale u a) (vadd (vscale v b) (vscale w c)).
Definition in_triangle (p a b c : vec3) : Prop := exists u v w, weights u v w /\ p = comb u v w a b c.

(* all attributes of x interpolate those of a, b, c with the same weights as the position *)
Definition interpolates (x a b c : vertex) : Prop :=
  exists u v w, weights u v w /\ v_pos x = comb u v w (v_pos a) (v_pos b) (v_pos c) /\
    forall k, v_attr x k = u * v_attr a k + v * v_attr b k + w * v_attr c k.

(* a list of intervals, each non-degenerate, in increasing order and not overlapping *)
Fixpoint sorted_disjoint (l : list interval) : Prop :=
  match l with
  | [] => True
  | (a, b) :: r => a < b /\ (forall c d, In (c, d) r -> b <= c) /\ sorted_disjoint r
  end.
(* t is in the interior of / in one of the intervals *)
Definition covers_open (l : list interval) (t : R) : Prop := exists a b, In (a, b) l /\ a < t < b.
Definition covers (l : list interval) (t : R) : Prop := exists a b, In (a, b) l /\ a <= t <= b.

(* consecutive elements increase by at least eps *)
Fixpoint separated (l : list R) : Prop :=
  match l with
  | a :: ((b :: _) as r) => a + eps <= b /\ separated r
  | _ => True
  end.

(* cr lists the plane crossings of f on [0,1]: f is continuous and either vanishes identically (nothing is
   listed) or vanishes inside (0,1) exactly at the listed parameters, which are in increasing order, at
   least eps apart and more than eps away from both ends *)
Definition exact_crossings (f : R -> R) (cr : list R) : Prop :=
  continuity f /\
  ((cr = [] /\ forall t, 0 <= t <= 1 -> f t = 0) \/
   ((forall t, 0 < t < 1 -> (f t = 0 <-> In t cr)) /\ (forall t, In t cr -> eps < t < 1 - eps) /\ separated cr)).
