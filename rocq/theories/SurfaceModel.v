(* Model of surface geometry: include/huira_impl/geometry/{mesh,ellipsoid}.ipp, SceneView::resolve_hit
   (include/huira_impl/scene/scene_view.ipp:300-332), the shading frame of Material::evaluate (include/huira_impl/materials/material.ipp:12-66),
   build_default_tangent_frame (include/huira/render/interaction.hpp:45-54) and ModelLoader::convert_transform_
   (include/huira_impl/assets/io/model_loader.ipp:301-350). Floats are exact reals; a NaN vector (glm::normalize of the zero vector) is None. *)
From Verif Require Import Common Vec3 TransformModel.
Open Scope R_scope.

(* glm::normalize, v * inversesqrt(dot(v, v)): a NaN for the zero vector *)
Definition onorm (v : vec3) : option vec3 := if Req_EM_T (dot v v) 0 then None else Some (vscale (/ vlen v) v).
Definition omap (f : vec3 -> vec3) (v : option vec3) : option vec3 := option_map f v.
Definition onorm' (v : option vec3) : option vec3 := match v with Some x => onorm x | None => None end.

(** Triangle meshes *)
(* Vertex and Tangent, include/huira/geometry/vertex.hpp:11-34; the albedo has any number of channels *)
Record vertex := Vx { vt_pos : vec3; vt_albedo : list R; vt_normal : vec3; vt_u : R; vt_v : R }.
Record mesh := Mesh { m_index : list nat; m_vertex : list vertex; m_tangent : list (vec3 * vec3) }.
(* Mesh::Mesh, mesh.ipp:20-48 (the two-buffer constructor has no tangents) *)
Definition new_mesh (idx : list nat) (vs : list vertex) (ts : list (vec3 * vec3)) : outcome mesh :=
  if existsb (fun i => Nat.leb (List.length vs) i) idx then Throws
  else if negb (Nat.eqb (List.length ts) 0) && negb (Nat.eqb (List.length ts) (List.length vs)) then Throws
  else Ok (Mesh idx vs ts).
(* triangle_count, mesh.ipp:176-179 *)
Definition triangle_count (m : mesh) : nat := Nat.div (List.length (m_index m)) 3.
(* reading a std::vector: outside is undefined *)
Definition at_ {A} (l : list A) (i : nat) : outcome A := match nth_error l i with Some x => Ok x | None => UB end.
(* w * a + u * b + v * c *)
Definition mix3 (w u v : R) (a b c : vec3) : vec3 := vadd (vadd (vscale w a) (vscale u b)) (vscale v c).
Definition mix1 (w u v a b c : R) : R := w * a + u * b + v * c.
Fixpoint mixl (w u v : R) (a b c : list R) : list R := match a, b, c with x :: a', y :: b', z :: c' => mix1 w u v x y z :: mixl w u v a' b' c' | _, _, _ => [] end.
(* what compute_surface_interaction leaves in the Interaction *)
Record local := Lo { lo_pos : vec3; lo_ns : vec3; lo_u : R; lo_v : R; lo_albedo : list R; lo_t : option vec3; lo_b : option vec3 }.
(* Mesh::compute_surface_interaction, mesh.ipp:50-83 *)
Definition mesh_surface (m : mesh) (prim : nat) (u v : R) : outcome local :=
  obind (at_ (m_index m) (prim * 3 + 0)) (fun i0 => obind (at_ (m_index m) (prim * 3 + 1)) (fun i1 => obind (at_ (m_index m) (prim * 3 + 2)) (fun i2 =>
  let w := 1 - u - v in
  obind (at_ (m_vertex m) i0) (fun a => obind (at_ (m_vertex m) i1) (fun b => obind (at_ (m_vertex m) i2) (fun c =>
  obind (match m_tangent m with
         | [] => Ok (vzero, vzero)
         | ts => obind (at_ ts i0) (fun t0 => obind (at_ ts i1) (fun t1 => obind (at_ ts i2) (fun t2 =>
                   Ok (mix3 w u v (fst t0) (fst t1) (fst t2), mix3 w u v (snd t0) (snd t1) (snd t2)))))
         end) (fun tb =>
  Ok (Lo (mix3 w u v (vt_pos a) (vt_pos b) (vt_pos c)) (mix3 w u v (vt_normal a) (vt_normal b) (vt_normal c))
         (mix1 w u v (vt_u a) (vt_u b) (vt_u c)) (mix1 w u v (vt_v a) (vt_v b) (vt_v c)) (mixl w u v (vt_albedo a) (vt_albedo b) (vt_albedo c))
         (Some (fst tb)) (Some (snd tb)))))))))).

(** Ellipsoids *)
(* std::atan2 for arguments that are not both zero (0 is its value at (0, 0)) *)
Definition atan2 (y x : R) : R :=
  if Rltb 0 x then atan (y / x) else if Rltb x 0 then (if Rleb 0 y then atan (y / x) + PI else atan (y / x) - PI)
  else if Rltb 0 y then PI / 2 else if Rltb y 0 then - (PI / 2) else 0.
Definition copysign (a b : R) : R := if Rltb b 0 then - a else a.
Record ehit := EH { e_t : R; e_u : R; e_v : R; e_ng : vec3 }.
Definition rmax3 (r : vec3) : R := Rmax (Rmax (vx r) (vy r)) (vz r).
Definition vinv (r : vec3) : vec3 := V3 (1 / vx r) (1 / vy r) (1 / vz r).
(* the hit written by test_hit, ellipsoid.ipp:144-163. No filter function is ever registered, so the call at 182 accepts *)
Definition ellipsoid_hit (r O D : vec3) (t : R) : ehit :=
  let O_s := vmul O (vinv r) in let D_s := vmul D (vinv r) in
  let L := vlen D_s in let D_u := vscale (/ L) D_s in
  let t_u := t * L in
  let P_s := vadd O_s (vscale t_u D_u) in
  let P_unit := normalize P_s in
  EH t ((atan2 (vy P_unit) (vx P_unit) + PI) / (2 * PI)) (acos (vz P_unit) / PI) (vscale (rmax3 r) (vmul P_s (vinv r))).
(* t_candidate < tnear || t_candidate > tfar, 138-142; tfar None is infinity *)
Definition in_range (tnear : R) (tfar : option R) (t : R) : bool := negb (Rltb t tnear) && match tfar with Some f => negb (Rltb f t) | None => true end.
(* intersect_callback, ellipsoid.ipp:91-195. When q is 0 the second root 0 / 0 is a NaN, which passes every comparison of test_hit:
   Some None stands for that hit; Some (Some h) a hit, None no hit *)
Definition ellipsoid_intersect (r O D : vec3) (tnear : R) (tfar : option R) : option (option ehit) :=
  let O_s := vmul O (vinv r) in let D_s := vmul D (vinv r) in
  let L := vlen D_s in let D_u := vscale (/ L) D_s in
  let B := 2 * dot O_s D_u in let C := dot O_s O_s - 1 in
  let discriminant := B * B - 4 * C in
  if Rltb discriminant 0 then None else
  let q := - (1 / 2) * (B + copysign (sqrt discriminant) B) in
  if Req_EM_T q 0 then (if in_range tnear tfar (q / L) then Some (Some (ellipsoid_hit r O D (q / L))) else Some None)
  else
    let a := q in let b := C / q in
    let t0 := (if Rltb b a then b else a) / L in let t1 := (if Rltb b a then a else b) / L in
    if in_range tnear tfar t0 then Some (Some (ellipsoid_hit r O D t0))
    else if in_range tnear tfar t1 then Some (Some (ellipsoid_hit r O D t1)) else None.
(* bounds_callback, ellipsoid.ipp:72-88: lower and upper corner *)
Definition ellipsoid_bounds (r : vec3) : vec3 * vec3 := (vscale (-1) r, r).
(* Ellipsoid::compute_surface_interaction, ellipsoid.ipp:13-45 *)
Definition ellipsoid_surface (r : vec3) (u v : R) : local :=
  let phi := u * 2 * PI - PI in let theta := v * PI in
  let pos := V3 (vx r * sin theta * cos phi) (vy r * sin theta * sin phi) (vz r * cos theta) in
  let rm := rmax3 r in
  let n := normalize (V3 (sin theta * cos phi * (rm / vx r)) (sin theta * sin phi * (rm / vy r)) (cos theta * (rm / vz r))) in
  let dpdu := V3 (- vx r * sin theta * sin phi) (vy r * sin theta * cos phi) 0 in
  let dpdu' := if Rltb (dot dpdu dpdu) (/ 10 ^ 8) then V3 1 0 0 else dpdu in
  let t := onorm dpdu' in
  Lo pos n u v [] t (match t with Some t => onorm (cross n t) | None => None end).

(** Hits in world space *)
Record interaction := Is { i_pos : vec3; i_ng : option vec3; i_ns : option vec3; i_t : option vec3; i_b : option vec3; i_wo : vec3 }.
(* a comparison with a NaN is false *)
Definition olt (x : option R) (y : R) : bool := match x with Some a => Rltb a y | None => false end.
Definition odot (a b : option vec3) : option R := match a, b with Some x, Some y => Some (dot x y) | _, _ => None end.
Definition ocross (a b : option vec3) : option vec3 := match a, b with Some x, Some y => Some (cross x y) | _, _ => None end.
(* SceneView::resolve_hit, scene_view.ipp:300-332; xf is instance_transforms[0] *)
Definition resolve_hit (xf : transform) (dir : vec3) (ng : vec3) (l : local) : interaction :=
  let n := onorm (to_direction xf ng) in
  let n_g := if olt (odot (Some dir) n) 0 then n else omap vopp n in
  let s := onorm (to_direction xf (lo_ns l)) in
  let n_s := if olt (odot s n_g) 0 then omap vopp s else s in
  let t := onorm' (omap (to_direction xf) (lo_t l)) in
  let b := onorm' (omap (to_direction xf) (lo_b l)) in
  let b' := if olt (odot (ocross t b) n_s) 0 then omap vopp b else b in
  Is (to_point xf (lo_pos l)) n_g n_s t b' (vopp dir).

(** Shading frames *)
(* the frame part of Material::evaluate, material.ipp:41-59. sampled: the normal map at the point; a NaN tangent differs from zero *)
Definition oscale (k : R) (v : option vec3) : option vec3 := omap (vscale k) v.
Definition oadd (a b : option vec3) : option vec3 := match a, b with Some x, Some y => Some (vadd x y) | _, _ => None end.
Definition osub (a b : option vec3) : option vec3 := match a, b with Some x, Some y => Some (vsub x y) | _, _ => None end.
Definition is_zero (v : option vec3) : bool := match v with Some x => if Req_EM_T (vx x) 0 then if Req_EM_T (vy x) 0 then if Req_EM_T (vz x) 0 then true else false else false else false | None => false end.
Definition mapped_normal (factor : R) (sampled : vec3) (i : interaction) : option vec3 :=
  if is_zero (i_t i) then i_ns i else
  match onorm' (omap (fun n => V3 (vx n * factor) (vy n * factor) (vz n)) (onorm sampled)) with
  | Some n => onorm' (oadd (oadd (oscale (vx n) (i_t i)) (oscale (vy n) (i_b i))) (oscale (vz n) (i_ns i)))
  | None => None
  end.
Definition shading_frame (eval_normal : bool) (factor : R) (sampled : vec3) (i : interaction) : interaction :=
  let n := if eval_normal then mapped_normal factor sampled i else i_ns i in
  let t := onorm' (osub (i_t i) (match odot (i_t i) n with Some d => oscale d n | None => None end)) in
  Is (i_pos i) (i_ng i) n t (ocross n t) (i_wo i).
(* build_default_tangent_frame, interaction.hpp:45-54; copysign(1, z) *)
Definition default_tangent_frame (n : vec3) : vec3 * vec3 :=
  let sign := copysign 1 (vz n) in
  let a := - 1 / (sign + vz n) in
  let b := vx n * vy n * a in
  (V3 (1 + sign * vx n * vx n * a) (sign * b) (- sign * vx n), V3 b (sign + vy n * vy n * a) (- vy n)).

(** Node matrices of model files *)
(* ModelLoader::convert_transform_, model_loader.ipp:301-350: a 4x4 matrix by its columns; the fourth row is ignored *)
Definition unit_column (c : vec3) : vec3 := let s := vlen c in if Rltb (/ 10 ^ 10) s then V3 (vx c / s) (vy c / s) (vz c / s) else c.
Definition convert_transform (a b c translation : vec3) : outcome transform :=
  obind (set_matrix (M3 (unit_column a) (unit_column b) (unit_column c))) (fun r =>
  Ok (T translation r (V3 (vlen a) (vlen b) (vlen c)) vzero vzero)).
