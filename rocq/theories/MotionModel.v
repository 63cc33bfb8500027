(* Model of how node states are evaluated over time: include/huira_impl/scene/node.ipp (get_apparent_transform, get_geometric_state_,
   get_ssb_transform_, get_local_position_at_, get_local_rotation_at_), the wrappers spkezr and sxform of include/huira_impl/core/spice.ipp, the
   nadir callbacks of include/huira/scene/state_callbacks/nadir_point.hpp, and the use made of them in SceneView (scene_view.ipp:49-65, 115-131,
   386-412). Exact real arithmetic in place of double and float; times are ephemeris seconds (Time::et()). *)
From Verif Require Import Vec3 TransformModel SpectralModel.
From Coq Require Import String.
Open Scope R_scope.

(* TransformMode, include/huira/scene/node.hpp:29-35 *)
Inductive tmode := Manual | Spice | PosCallback | RotCallback | StateCallback.
(* ObservationMode, include/huira/scene/scene.hpp / node.hpp *)
Inductive obsmode := TrueState | Geometric | Aberrated.
(* What CSPICE answers: spkezr_c(origin, et, "J2000", "NONE", "SSB") in km and km/s (None: it signals an error, check_spice_error throws), and
   sxform_c("J2000", frame, et): the rotation block R (J2000 coordinates to frame coordinates) and its time derivative R', the lower left block of the state transformation *)
Record ephemeris := Eph { e_spk : string -> R -> option (vec3 * vec3); e_sx : string -> R -> option (mat3 * mat3) }.
(* the wrapper spkezr, spice.ipp:272-296: kilometres to metres *)
Definition spkezr (e : ephemeris) (o : string) (t : R) : outcome (vec3 * vec3) :=
  match e_spk e o t with Some (p, v) => Ok (vscale 1000 p, vscale 1000 v) | None => Throws end.
(* CSPICE's xf2rav_c, from its documentation (not in /repo): the rotation block as it is, and the angular velocity read off transpose(R') * R, whose
   entry (row i, column j) is the inner product of column i of R' and column j of R *)
Definition xf2rav (r dr : mat3) : mat3 * vec3 :=
  let w := mmul (transpose dr) r in (r, V3 (vz (c1 w)) (vx (c2 w)) (vy (c0 w))).
(* the wrapper sxform, spice.ipp:343-380 *)
Definition sxform (e : ephemeris) (f : string) (t : R) : outcome (mat3 * vec3) :=
  match e_sx e f t with
  | Some (r, dr) => let (m, av) := xf2rav r dr in obind (from_parent_matrix m) (fun rot => Ok (rot, mapply rot av))
  | None => Throws
  end.

(* Node, node.hpp:130-160: local_transform_, body_frame_rates_, the two modes, the SPICE names and the callbacks (as functions of their arguments: callbacks
   with hidden state are not modelled) *)
Record mnode := MNode {
  m_pmode : tmode; m_rmode : tmode; m_origin : string; m_frame : string; m_local : transform; m_body : bool;
  m_pcb : R -> mat3 -> vec3 -> vec3 * vec3; m_rcb : R -> vec3 -> vec3 -> outcome (mat3 * vec3); m_scb : R -> transform }.
(* get_local_position_at_, node.ipp:517-533 *)
Definition local_position_at (n : mnode) (epoch t dt : R) : vec3 * vec3 :=
  let total := (t - dt) - epoch in (vadd (t_pos (m_local n)) (vscale total (t_vel (m_local n))), t_vel (m_local n)).
(* get_local_rotation_at_, node.ipp:543-580; eps is numeric_limits<double>::epsilon() (used inside from_local_to_parent) *)
Definition local_rotation_at (eps : R) (n : mnode) (epoch t dt : R) : outcome (mat3 * vec3) :=
  let total := (t - dt) - epoch in
  let omega := t_ang (m_local n) in
  let angle := vlen omega * total in
  obind (if Rltb (Rabs angle) (/ 10 ^ 12) then Ok (t_rot (m_local n))
         else obind (from_axis_angle eps (normalize omega) angle) (fun delta =>
              if m_body n then rot_mul (t_rot (m_local n)) delta else rot_mul delta (t_rot (m_local n))))
        (fun r => Ok (r, omega)).
(* a default-constructed Transform, transform.hpp *)
Definition t_default : transform := T vzero ident (V3 1 1 1) vzero vzero.
(* the mixed case of get_ssb_transform_, node.ipp:465-506: the local state relative to the parent's state *)
Definition local_state (eps : R) (e : ephemeris) (n : mnode) (parent : transform) (epoch t dt : R) : outcome transform :=
  let te := t - dt in
  obind (match m_pmode n with
         | Spice => obind (spkezr e (m_origin n) te) (fun pv => obind (t_inverse parent) (fun inv => Ok (to_point inv (fst pv), to_direction inv (snd pv))))
         | Manual => Ok (local_position_at n epoch t dt)
         | _ => Ok (vzero, vzero)
         end) (fun pv =>
  obind (match m_rmode n with
         | Spice => obind (sxform e (m_frame n) te) (fun rw => obind (t_inverse parent) (fun inv => obind (rot_mul (t_rot inv) (fst rw)) (fun r => Ok (r, to_direction inv (snd rw)))))
         | Manual => local_rotation_at eps n epoch t dt
         | _ => Ok (ident, vzero)
         end) (fun rw =>
  let pv' := match m_pmode n with PosCallback => m_pcb n te (fst rw) (snd rw) | _ => pv end in
  obind (match m_rmode n with RotCallback => m_rcb n te (fst pv') (snd pv') | _ => Ok rw end) (fun rw' =>
  Ok (T (fst pv') (fst rw') (t_scale (m_local n)) (snd pv') (snd rw'))))).
(* get_ssb_transform_, node.ipp:427-507. The list is the node, its parent, and so on up to the root (the parent_ pointers) *)
Fixpoint ssb_transform (eps : R) (e : ephemeris) (chain : list mnode) (epoch t dt : R) : outcome transform :=
  match chain with
  | [] => UB
  | n :: up =>
    let te := t - dt in
    match m_pmode n, m_rmode n with
    | Spice, Spice =>
        obind (spkezr e (m_origin n) te) (fun pv => obind (sxform e (m_frame n) te) (fun rw =>
        Ok (T (fst pv) (fst rw) (t_scale (m_local n)) (snd pv) (snd rw))))
    | pm, rm =>
      match up with
      | [] => Throws
      | _ :: _ =>
        obind (ssb_transform eps e up epoch t dt) (fun parent =>
        match pm, rm with
        | StateCallback, StateCallback => let l := m_scb n te in t_mul parent (T (t_pos l) (t_rot l) (t_scale (m_local n)) (t_vel l) (t_ang l))
        | _, _ => obind (local_state eps e n parent epoch t dt) (t_mul parent)
        end)
      end
    end
  end.
(* the loop of get_geometric_state_, node.ipp:402-416: [state] is the state evaluated last and dt the light time found last *)
Fixpoint light_time_loop (ssb : R -> outcome transform) (obs : vec3) (tol : R) (k : nat) (state : transform) (dt : R) : outcome (transform * R) :=
  match k with
  | O => Ok (state, dt)
  | S k' => obind (ssb dt) (fun st =>
      let new_dt := vlen (vsub obs (t_pos st)) / SPEED_OF_LIGHT in
      if Rltb (Rabs (new_dt - dt)) tol then Ok (st, new_dt) else light_time_loop ssb obs tol k' st new_dt)
  end.
(* get_geometric_state_, node.ipp:387-419 *)
Definition geometric_state (eps : R) (e : ephemeris) (chain : list mnode) (epoch t : R) (observer : transform) (iterate : bool) (tol : R) : outcome (transform * R) :=
  if iterate then
    obind (ssb_transform eps e chain epoch t 0) (fun st =>
    light_time_loop (ssb_transform eps e chain epoch t) (t_pos observer) tol 10 st (vlen (vsub (t_pos observer) (t_pos st)) / SPEED_OF_LIGHT))
  else obind (ssb_transform eps e chain epoch t 0) (fun st => Ok (st, 0)).
(* get_apparent_transform, node.ipp:345-375; the default tolerance 1e-12 is node.hpp:166 *)
Definition set_pos (t : transform) (p : vec3) : transform := T p (t_rot t) (t_scale t) (t_vel t) (t_ang t).
Definition apparent_transform (eps : R) (e : ephemeris) (chain : list mnode) (mode : obsmode) (epoch t : R) (observer : transform) : outcome transform :=
  obind (geometric_state eps e chain epoch t observer (match mode with TrueState => false | _ => true end) (/ 10 ^ 12)) (fun r =>
  let st := fst r in
  match mode with
  | Aberrated =>
      let rel := vsub (t_pos st) (t_pos observer) in
      let dist := vlen rel in
      if Rltb (/ 10 ^ 8) dist then obind (aberrated (vscale (/ dist) rel) (t_vel observer)) (fun u => Ok (set_pos st (vadd (t_pos observer) (vscale dist u))))
      else Ok st
  | _ => Ok st
  end).
(* SceneView: the observer's state at one time sample, scene_view.ipp:55-63 (the sensor rotation follows the camera's own) *)
Definition observer_state (eps : R) (e : ephemeris) (camera : list mnode) (sensor : mat3) (epoch t : R) : outcome transform :=
  obind (ssb_transform eps e camera epoch t 0) (fun o => obind (rot_mul (t_rot o) sensor) (fun r => Ok (T (t_pos o) r (t_scale o) (t_vel o) (t_ang o)))).
(* SceneView: an instance at one time sample in the camera frame, scene_view.ipp:393-404 *)
Definition render_transform (eps : R) (e : ephemeris) (chain : list mnode) (mode : obsmode) (epoch t : R) (obs : transform) : outcome transform :=
  obind (t_inverse obs) (fun inv => obind (apparent_transform eps e chain mode epoch t obs) (fun st => t_mul inv st)).
(* SceneView: a star at one time sample in the camera frame, scene_view.ipp:115-131, with Star's constructor (star.ipp:13-17); the observation mode is not looked at *)
Definition render_star (direction : vec3) (mode : obsmode) (obs : transform) : outcome vec3 :=
  obind (aberrated direction (t_vel obs)) (fun u => obind (rot_inverse (t_rot obs)) (fun inv => Ok (normalize (mapply inv u)))).

(* ZUpYForwardCallback and ZDownYForwardCallback, nadir_point.hpp:8-40 (the sign of the z axis is the only difference); glm::normalize of a zero vector
   is not a number, which makes every test of set_matrix false: [UB] stands for the rotation full of NaN that results *)
Definition from_basis (x y z : vec3) : outcome mat3 := set_matrix (M3 x y z).
Definition is_zero (v : vec3) : bool := if Req_EM_T (dot v v) 0 then true else false.
Definition nadir (sign : R) (position velocity : vec3) : outcome (mat3 * vec3) :=
  if is_zero position || is_zero velocity then UB else
  let z := vscale sign (normalize position) in
  let y := normalize velocity in
  if is_zero (cross y z) then UB else
  let x := normalize (cross y z) in
  let y' := normalize (cross z x) in
  obind (from_basis x y' z) (fun r => Ok (r, vzero)).
Definition z_up (_ : R) (p v : vec3) := nadir 1 p v.
Definition z_down (_ : R) (p v : vec3) := nadir (-1) p v.

(* Star::compute_direction_, star.ipp:76-90: right ascension and declination in radians, proper motions in milliarcseconds per year *)
Definition MAS_TO_RAD : R := PI / (180 * 3600 * 1000).
Definition star_direction (ra dec pm_ra pm_dec years : R) : vec3 :=
  let d := dec + pm_dec * MAS_TO_RAD * years in
  let a := ra + pm_ra * MAS_TO_RAD * years / cos d in
  normalize (V3 (cos d * cos a) (cos d * sin a) (sin d)).
