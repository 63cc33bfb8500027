(* Model of Frustum, include/huira_impl/render/frustum.ipp, in exact real arithmetic (glm float
   rounding is not modelled). A vertex is its position and its other scalar attributes (albedo bins,
   normal, uv, tangent, bitangent components), indexed by a natural number. *)
From Verif Require Import Vec3.

(* Vertex plus Tangent (ClipVertex, frustum.hpp:58-64) *)
Record vertex := Vx { v_pos : vec3; v_attr : nat -> R }.

(* Frustum::contains, frustum.ipp:25-33 *)
Fixpoint contains (normals : list vec3) (d : vec3) : bool :=
  match normals with
  | [] => true
  | n :: r => if Rltb (dot n d) 0 then false else contains r d
  end.

(* lerp_clip_vertex_, frustum.ipp:130-143 *)
Definition lerp_vertex (a b : vertex) (t : R) : vertex :=
  Vx (vadd (v_pos a) (vscale t (vsub (v_pos b) (v_pos a)))) (fun k => v_attr a k + t * (v_attr b k - v_attr a k)).

(* body of the loop of clip_polygon_by_plane_, frustum.ipp:168-188, for one edge *)
Definition edge_out (n : vec3) (current next : vertex) : list vertex :=
  let d_current := dot n (v_pos current) in
  let d_next := dot n (v_pos next) in
  let current_inside := Rleb 0 d_current in
  let next_inside := Rleb 0 d_next in
  if (current_inside && next_inside)%bool then [next]
  else if (current_inside && negb next_inside)%bool then [lerp_vertex current next (d_current / (d_current - d_next))]
  else if (negb current_inside && next_inside)%bool then [lerp_vertex current next (d_current / (d_current - d_next)); next]
  else [].

(* clip_polygon_by_plane_, frustum.ipp:157-191: i ranges over the vertices, next is polygon[(i+1) % n] *)
Definition clip_polygon (n : vec3) (polygon : list vertex) : list vertex :=
  match polygon with
  | [] => []
  | p0 :: _ =>
      flat_map (fun i => edge_out n (nth i polygon p0) (nth ((i + 1) mod List.length polygon) polygon p0))
               (seq 0 (List.length polygon))
  end.

(* the plane loop of clip_triangle with its early return, frustum.ipp:65-71 *)
Fixpoint clip_planes (normals : list vec3) (polygon : list vertex) : list vertex :=
  match normals with
  | [] => polygon
  | n :: r => let p := clip_polygon n polygon in
              match p with [] => [] | _ => clip_planes r p end
  end.

(* the fan, frustum.ipp:77-88: i from 1 while i + 1 < size *)
Definition fan (polygon : list vertex) : list (vertex * vertex * vertex) :=
  match polygon with
  | [] => []
  | p0 :: _ => map (fun i => (p0, nth i polygon p0, nth (i + 1) polygon p0)) (seq 1 (List.length polygon - 2))
  end.

(* clip_triangle, frustum.ipp:51-91. result.reserve(polygon.size() - 2) throws std::length_error when the
   unsigned subtraction wraps. *)
Definition clip_triangle (normals : list vec3) (a b c : vertex) : outcome (list (vertex * vertex * vertex)) :=
  let polygon := clip_planes normals [a; b; c] in
  match polygon with
  | [] => Ok []
  | _ => if Nat.ltb (List.length polygon) 2 then Throws else Ok (fan polygon)
  end.

(** Intervals *)
Definition interval := (R * R)%type.

(* intersect_intervals_, frustum.ipp:243-265; the loop with indices i, j as recursion on the remaining lists *)
Fixpoint intersect (a : list interval) : list interval -> list interval :=
  match a with
  | [] => fun _ => []
  | (a1, a2) :: ra =>
      fix inner (b : list interval) : list interval :=
        match b with
        | [] => []
        | (b1, b2) :: rb =>
            let lo := Rmax a1 b1 in
            let hi := Rmin a2 b2 in
            (if Rltb lo hi then [(lo, hi)] else []) ++ (if Rltb a2 b2 then intersect ra b else inner rb)
        end
  end.

(* boundaries of arc_intervals_inside_plane_, frustum.ipp:203-216 *)
Definition eps : R := 1 / 1000000.
Definition boundaries (crossings : list R) : list R :=
  0 :: filter (fun t => (Rltb eps t && Rltb t (1 - eps))%bool) crossings ++ [1].

(* the midpoint test and merge loop, frustum.ipp:218-231; acc is the interval list built so far, reversed *)
Fixpoint arc_loop (f : R -> R) (bs : list R) (acc : list interval) : list interval :=
  match bs with
  | b0 :: ((b1 :: _) as r) =>
      let t_mid := (b0 + b1) / 2 in
      if Rleb 0 (f t_mid) then
        match acc with
        | (s, e) :: acc' => if Rltb (Rabs (e - b0)) eps then arc_loop f r ((s, b1) :: acc')
                            else arc_loop f r ((b0, b1) :: acc)
        | [] => arc_loop f r [(b0, b1)]
        end
      else arc_loop f r acc
  | _ => rev acc
  end.

(* arc_intervals_inside_plane_, frustum.ipp:201-234; f t = dot(normal, arc(t)), crossings = find_plane_crossings *)
Definition arc_intervals (f : R -> R) (crossings : list R) : list interval :=
  arc_loop f (boundaries crossings) [].

(* clip_arc, frustum.ipp:101-119; one (f, crossings) pair per plane *)
Fixpoint clip_arc_loop (planes : list ((R -> R) * list R)) (result : list interval) : list interval :=
  match planes with
  | [] => result
  | (f, cr) :: r => let res := intersect result (arc_intervals f cr) in
                    match res with [] => [] | _ => clip_arc_loop r res end
  end.
Definition clip_arc (planes : list ((R -> R) * list R)) : list interval := clip_arc_loop planes [(0, 1)].
