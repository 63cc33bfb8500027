(* Model of the auxiliary channels of Renderer::path_trace_ (include/huira_impl/render/renderer.ipp:159-171, 318-400, 482-560): depth, geometry id, albedo
   and camera normals of one pixel. What a camera path meets is given as a list of events; which events a path meets is PathModel's matter. Float
   arithmetic is exact. *)
From Coq Require Import Reals.
From Verif Require Import Common Vec3 LightModel.
Open Scope R_scope.

(* what the loop over bounces meets: a surface that lets the ray through (354-374), a surface that is shaded (376-484), a volume scattering event (207-283),
   a light (318-340), after which the path ends. t is hit.t: the distance from the current ray's origin *)
Inductive event := Pass (t : R) (id : nat) | Shade (t : R) (id : nat) (albedo : R) (normal : vec3) | Scatter | LightHit (t : R).
Record aov := Aov { a_depth : option R (* None: infinity *); a_id : option nat; a_albedo : R; a_normal : vec3; a_taken : nat }.
(* 165-170 *)
Definition aov0 : aov := Aov None None 0 vzero 0.
Definition closer (d : option R) (t : R) : option R := match d with Some x => Some (Rmin x t) | None => Some t end.
(* 343-345 *)
Definition see_id (s : nat) (id : nat) (a : aov) : aov := match s with O => Aov (a_depth a) (Some id) (a_albedo a) (a_normal a) (a_taken a) | _ => a end.
(* 384-388 *)
Definition record (t albedo : R) (normal : vec3) (a : aov) : aov := Aov (closer (a_depth a) t) (a_id a) (a_albedo a + albedo) (vadd (a_normal a) normal) (a_taken a).
(* the loop over bounces, 196-485. A surface that lets the ray through does bounce-- before the loop's ++bounce *)
Fixpoint path (s max_bounces bounce : nat) (l : list event) (a : aov) : aov :=
  if (bounce <? max_bounces)%nat then
    match l with
    | [] => a
    | Pass t id :: r => path s max_bounces bounce r (see_id s id a)
    | Shade t id albedo normal :: r =>
        let a := see_id s id a in
        let a := if (bounce =? 0)%nat then record t albedo normal a else a in
        path s max_bounces (S bounce) r a
    | Scatter :: r => path s max_bounces (S bounce) r a
    | LightHit t :: _ => a
    end
  else a.
(* the loop over samples, 178-535: a sample whose radiance is NaN is not counted (496-498). Which samples are taken is C65's matter *)
Record sample := Sample { events : list event; is_nan : bool }.
Fixpoint samples (s max_bounces : nat) (l : list sample) (a : aov) : aov :=
  match l with
  | [] => a
  | p :: r =>
      let a := path s max_bounces 0 (events p) a in
      let a := if is_nan p then a else Aov (a_depth a) (a_id a) (a_albedo a) (a_normal a) (S (a_taken a)) in
      samples (S s) max_bounces r a
  end.
(* 537-560: what is written. A division by zero samples gives None *)
Record pixel := Px { x_depth : option R; x_id : option nat; x_albedo : option R; x_normal : option vec3 }.
Definition finish (a : aov) : pixel :=
  let inv n := / INR n in
  Px (a_depth a) (a_id a)
     (match a_taken a with O => None | n => Some (a_albedo a * inv n) end)
     (match a_taken a with O => None | n => let v := vscale (inv n) (a_normal a) in if Req_EM_T (dot v v) 0 then None else Some (vscale (/ vlen v) v) end).
Definition render_pixel (max_bounces : nat) (l : list sample) : pixel := finish (samples 0 max_bounces l aov0).
