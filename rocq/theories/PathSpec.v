(* Specification vocabulary for media, shadow rays and the path tracing estimator. *)
From Verif Require Import Common Vec3 SpectralModel MediumStackModel MediumStackSpec PathModel.
Open Scope R_scope.

Definition nonneg (l : list R) : Prop := forall x, In x l -> 0 <= x.
(* the value of channel c *)
Definition ch (c : nat) (l : list R) : R := nth c l 0.
(* a medium as a user may define it, with n channels *)
Definition medium_ok (n : nat) (m : medium_props) : Prop := List.length (absorption m) = n /\ List.length (scattering m) = n /\ nonneg (absorption m) /\ nonneg (scattering m).
(* extinction coefficient of channel c: absorption plus scattering *)
Definition sigma (m : medium_props) (c : nat) : R := ch c (absorption m) + ch c (scattering m).
(* the coefficient that governs a ray after the boundary crossings w: that of the innermost volume the ray is inside, 0 outside all *)
Definition coefficient (medium : prim -> option med) (props : med -> medium_props) (w : list (option prim)) (c : nat) (s : R) : Prop :=
  exists path, inside medium w path /\ (List.length path <= 8)%nat /\
    s = match path with [] => 0 | p :: _ => match medium p with Some m => sigma (props m) c | None => 0 end end.
(* optical depth along a shadow ray of length rem with the given surface crossings, when s w is the coefficient after the crossings w *)
Fixpoint optical_depth (s : list (option prim) -> R) (w : list (option prim)) (crossed : list crossing) (rem : R) : R :=
  match crossed with
  | [] => s w * rem
  | h :: r => s w * c_t h + optical_depth s (w ++ [c_prim h]) r (rem - c_t h)
  end.
(* the ray slips through a partly transparent surface when its random number exceeds the opacity; otherwise the transmission colour applies *)
Definition factor (c : nat) (h : crossing) : R := if Rltb (c_opacity h) 1 && Rltb (c_opacity h) (c_u h) then 1 else ch c (c_trans h).
Definition product (l : list R) : R := fold_right Rmult 1 l.
Definition total_t (l : list crossing) : R := fold_right (fun h a => c_t h + a) 0 l.

(* inputs with which no negative light enters the estimate *)
Definition surf_light_ok (l : surf_light) : Prop := nonneg (l_Li l) /\ 0 < l_pdf l /\ nonneg (l_f l) /\ 0 <= l_cos l /\ nonneg (l_tr l).
Definition vol_light_ok (l : vol_light) : Prop := nonneg (v_Li l) /\ 0 < v_pdf l /\ 0 <= v_phase l /\ nonneg (v_tr l).
Definition target_ok (t : target) : Prop :=
  match t with
  | Miss env => nonneg env
  | HitLight Le _ => nonneg Le
  | HitSurface s => (forall l, In l (s_lights s) -> surf_light_ok l) /\ (forall b, s_bsdf s = Some b -> nonneg (b_value b))
  end.
Definition segment_ok (g : segment) : Prop := target_ok (g_target g) /\ (forall l, In l (g_vol_lights g) -> vol_light_ok l) /\ 0 < g_phase_pdf g /\ 0 <= g_phase_val g.
(* the ray may slip through the surface this segment ends on *)
Definition slips (g : segment) : bool := match g_target g with HitSurface s => Rltb (s_opacity s) 1 && Rltb (s_opacity s) (s_u_opacity s) | _ => false end.
