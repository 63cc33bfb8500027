(* Model of the path tracing estimator, include/huira_impl/render/renderer.ipp:179-490, of Medium and the homogeneous
   density field (include/huira/volumes/) and of SceneView::evaluate_transmittance
   (include/huira_impl/scene/scene_view.ipp:221-285). Exact real arithmetic; a spectrum is the list of its channels.
   What a ray meets (the answers of Embree, of the light, BSDF and texture evaluations and of the random sampler) is
   given as data, one record per ray segment; the estimator's own arithmetic and control flow are modelled. *)
From Verif Require Import Common Vec3 SpectralModel LightModel MediumStackModel.
Open Scope R_scope.

(** Media *)
(* MediumProperties, volumes/medium_properties.hpp:7-13 *)
Record medium_props := MP { absorption : list R; scattering : list R }.
(* extinction, medium_properties.hpp:11 *)
Definition extinction (m : medium_props) : list R := zip Rplus (absorption m) (scattering m).
(* ConstantDensityField(absorption, scattering), volumes/density/constant_density_field.hpp:17-31 *)
Definition constant_density_field (a s : list R) : outcome medium_props :=
  if existsb (fun v => Rltb v 0) a then Throws else if existsb (fun v => Rltb v 0) s then Throws else Ok (MP a s).
(* TSpectral{x}: all channels x *)
Definition fill (n : nat) (x : R) : list R := repeat x n.
(* Tr[c] = exp(-ext[c] * t), medium.hpp:67-71, renderer.ipp:214-217, 280-283 *)
Definition beer (ext : list R) (t : R) : list R := map (fun e => exp (- e * t)) ext.
(* Medium::evaluate_transmittance, volumes/medium.hpp:56-73 *)
Definition evaluate_transmittance (m : medium_props) (t : R) : list R :=
  if Rleb t 0 then fill (List.length (extinction m)) 1 else beer (extinction m) t.
(* avg_ext, medium.hpp:85-90, renderer.ipp:206-210 *)
Definition avg_ext (ext : list R) : R := sum ext / INR (List.length ext).
(* Medium::sample_free_path, volumes/medium.hpp:78-104: the distance for the random number u, None: nullopt *)
Definition sample_free_path (m : medium_props) (u : R) : option R :=
  let a := avg_ext (extinction m) in if Rleb a (/ 10 ^ 6) then None else Some (- ln (1 - u) / a).
(* IsotropicPhaseFunction::evaluate and ::sample, volumes/scattering/isotropic_scatter.hpp:18-41; u is get_2d() *)
Definition iso_evaluate : R := 1 / (4 * PI).
Definition iso_sample (u1 u2 : R) : vec3 * R :=
  let z := 1 - 2 * u1 in let r := sqrt (Rmax 0 (1 - z * z)) in let phi := 2 * PI * u2 in (V3 (r * cos phi) (r * sin phi) z, iso_evaluate).

(** Weights of one sample *)
Definition smul (a b : list R) : list R := zip Rmult a b.
Definition sscale (k : R) (a : list R) : list R := map (Rmult k) a.
Definition sadd (a b : list R) : list R := zip Rplus a b.
(* power_heuristic, renderer.ipp:64-72, in exact arithmetic (no overflow, so isinf is false; RenderModel.power_heuristic
   has the overflow cases). None: 0/0, a NaN *)
Definition heuristic (f g : R) : option R := if Req_EM_T (f * f + g * g) 0 then None else Some (f * f / (f * f + g * g)).
(* throughput after a collision in the medium at distance t, renderer.ipp:213-220 *)
Definition collide (m : medium_props) (t : R) (throughput : list R) : list R :=
  let a := avg_ext (extinction m) in
  sscale (1 / (a * exp (- a * t))) (smul (smul throughput (scattering m)) (beer (extinction m) t)).
(* throughput after crossing the medium up to a surface at distance t, renderer.ipp:279-287 *)
Definition traverse (m : medium_props) (t : R) (throughput : list R) : list R :=
  let a := avg_ext (extinction m) in sscale (1 / exp (- a * t)) (smul throughput (beer (extinction m) t)).
(* light sample at a scattering point, renderer.ipp:254-258; phase is the phase function's value, tr the shadow transmittance *)
Record vol_light := VL { v_Li : list R; v_pdf : R; v_phase : R; v_tr : list R }.
Definition nee_volume (throughput : list R) (l : vol_light) : list R :=
  if Rleb (vmax (v_tr l)) 0 then fill (List.length throughput) 0
  else smul (sscale (v_phase l) (smul throughput (sscale (1 / v_pdf l) (v_Li l)))) (v_tr l).
(* light sample at a surface point, renderer.ipp:418-438; f the BSDF value, cos the clamped cosine, bpdf material->bsdf_pdf;
   samples rejected at lines 396-408 are not in the list *)
Record surf_light := SLt { l_Li : list R; l_pdf : R; l_f : list R; l_cos : R; l_bpdf : R; l_tr : list R }.
Definition nee_surface (throughput : list R) (l : surf_light) : option (list R) :=
  if Rleb (vmax (l_tr l)) 0 then Some (fill (List.length throughput) 0)
  else match heuristic (l_pdf l) (l_bpdf l) with
       | Some w => Some (smul (sscale w (sscale (l_cos l) (smul (smul throughput (sscale (1 / l_pdf l) (l_Li l))) (l_f l)))) (l_tr l))
       | None => None
       end.
(* a ray that hits a light, renderer.ipp:311-338; light_pdf is light->pdf_li(prev_isect, ...) *)
Definition hit_light (bounce : nat) (throughput Le : list R) (prev_pdf light_pdf : R) : option (list R) :=
  match (if Nat.eqb bounce 0 then Some 1 else heuristic prev_pdf light_pdf) with
  | Some w => Some (sscale w (smul throughput Le))
  | None => None
  end.
(* a sample of the BSDF, include/huira/materials/bsdf: value is f cos / pdf *)
Record bsdf_choice := BC { b_value : list R; b_pdf : R; b_delta : bool }.
(* prev_bsdf_pdf, renderer.ipp:457 *)
Definition recorded_pdf (b : bsdf_choice) : R := if b_delta b then 0 else b_pdf b.
(* Russian roulette, renderer.ipp:463-470: the new throughput; Some None: the path ends; None: division by zero *)
Definition survival (throughput : list R) : R := Rmin (95 / 100) (vmax throughput).
Definition roulette (u : R) (throughput : list R) : option (option (list R)) :=
  let p := survival throughput in
  if Rltb p u then Some None else if Req_EM_T p 0 then None else Some (Some (map (fun x => x / p) throughput)).
(* indirect clamping, renderer.ipp:484-489; threshold None: infinity, the default (renderer.hpp:70) *)
Definition clamp_indirect (threshold : option R) (indirect : list R) : list R :=
  match threshold with
  | None => indirect
  | Some th => if Rltb th (vmax indirect) then sscale (th / vmax indirect) indirect else indirect
  end.

(** The path, renderer.ipp:181-482 *)
(* a surface hit: the primitive (its pointer and medium), opacity and the two random numbers, the light samples, the BSDF sample
   (None: not valid), and whether the new direction is on the other side (lines 475-481) *)
Record surface := Su { s_prim : option prim; s_opacity : R; s_u_opacity : R; s_lights : list surf_light; s_bsdf : option bsdf_choice;
  s_u_roulette : R; s_transmitted : bool }.
Inductive target := Miss (env : list R) | HitLight (Le : list R) (light_pdf : R) | HitSurface (s : surface).
(* one ray segment: the distance of the hit (irrelevant for Miss, whose hit.t is infinite), the random number of the free path,
   the light samples and the phase sample (pdf and phase function value) should the ray collide *)
Record segment := Sg { g_target : target; g_t : R; g_u_free : R; g_vol_lights : list vol_light; g_phase_pdf : R; g_phase_val : R }.
(* throughput, direct_radiance, indirect_radiance, prev_bsdf_pdf, medium_stack, renderer.ipp:179-196 *)
Record path := Pt { p_thr : list R; p_direct : list R; p_indirect : list R; p_prev : R; p_stack : mstack }.
Definition path0 (n : nat) : path := Pt (fill n 1) (fill n 0) (fill n 0) 1 empty_stack.
(* if (bounce == 0) direct += x else indirect += x, renderer.ipp:260-264, 300-304, 333-337, 440-444 *)
Definition deposit (bounce : nat) (x : list R) (p : path) : path :=
  if Nat.eqb bounce 0 then Pt (p_thr p) (sadd (p_direct p) x) (p_indirect p) (p_prev p) (p_stack p)
  else Pt (p_thr p) (p_direct p) (sadd (p_indirect p) x) (p_prev p) (p_stack p).
Definition set_thr (t : list R) (p : path) : path := Pt t (p_direct p) (p_indirect p) (p_prev p) (p_stack p).
Definition set_prev (x : R) (p : path) : path := Pt (p_thr p) (p_direct p) (p_indirect p) x (p_stack p).
Definition set_stack (s : mstack) (p : path) : path := Pt (p_thr p) (p_direct p) (p_indirect p) (p_prev p) s.
(* what one iteration of the bounce loop leads to *)
Inductive next := Bounce (p : path)        (* continue, counted *)
                | Pass (p : path)          (* continue after bounce-- (line 369) *)
                | Stop (p : path)          (* break *)
                | Nan                      (* a NaN entered the radiance or throughput *)
                | Undefined.               (* undefined behaviour *)
Fixpoint nee_all (bounce : nat) (ls : list surf_light) (p : path) : option path :=
  match ls with
  | [] => Some p
  | l :: r => match nee_surface (p_thr p) l with Some x => nee_all bounce r (deposit bounce x p) | None => None end
  end.
Section Path.
Variable medium : prim -> option med.            (* primitive->medium *)
Variable props : med -> medium_props.            (* Medium::get_properties; a homogeneous field *)
(* the surface part, renderer.ipp:343-482 *)
Definition surface_step (bounce : nat) (s : surface) (p : path) : next :=
  if Rltb (s_opacity s) 1 && Rltb (s_opacity s) (s_u_opacity s) then
    match toggle medium (p_stack p) (s_prim s) with Ok st => Pass (set_stack st p) | _ => Undefined end
  else match nee_all bounce (s_lights s) p with
  | None => Nan
  | Some p1 =>
    match s_bsdf s with
    | None => Stop p1
    | Some b =>
      let p2 := set_thr (smul (p_thr p1) (b_value b)) (set_prev (recorded_pdf b) p1) in
      match (if Nat.leb 3 bounce then roulette (s_u_roulette s) (p_thr p2) else Some (Some (p_thr p2))) with
      | None => Nan
      | Some None => Stop p2
      | Some (Some t) =>
        if s_transmitted s then match toggle medium (p_stack p2) (s_prim s) with Ok st => Bounce (set_stack st (set_thr t p2)) | _ => Undefined end
        else Bounce (set_thr t p2)
      end
    end
  end.
(* what the segment ends in once it is not stopped by the medium, renderer.ipp:290-482 *)
Definition arrive (bounce : nat) (g : segment) (p : path) : next :=
  match g_target g with
  | Miss env => Stop (deposit bounce (smul (p_thr p) env) p)
  | HitLight Le light_pdf => match hit_light bounce (p_thr p) Le (p_prev p) light_pdf with Some x => Stop (deposit bounce x p) | None => Nan end
  | HitSurface s => surface_step bounce s p
  end.
(* one iteration, renderer.ipp:199-482. When the ray escapes to infinity in a medium too thin to sample (line 279 with hit.t
   infinite) both exponentials are exp(-inf) = 0 or exp(-0*inf) = NaN and the product is a NaN *)
Definition iterate (bounce : nat) (g : segment) (p : path) : next :=
  match top (p_stack p) with
  | Ok None => arrive bounce g p
  | Ok (Some m) =>
    let mp := props m in
    let finite := match g_target g with Miss _ => false | _ => true end in
    match sample_free_path mp (g_u_free g) with
    | Some t =>
      if negb finite || Rltb t (g_t g) then
        let p1 := set_thr (collide mp t (p_thr p)) p in
        let p2 := fold_left (fun q l => deposit bounce (nee_volume (p_thr q) l) q) (g_vol_lights g) p1 in
        Bounce (set_prev (g_phase_pdf g) (set_thr (sscale (g_phase_val g / g_phase_pdf g) (p_thr p2)) p2))
      else arrive bounce g (set_thr (traverse mp (g_t g) (p_thr p)) p)
    | None => if finite then arrive bounce g (set_thr (traverse mp (g_t g) (p_thr p)) p) else Nan
    end
  | _ => Undefined
  end.
(* the loop, renderer.ipp:198; the segments are the successive answers of the scene *)
Inductive traced := Done (p : path) | Unfinished (p : path) | TNan | TUndefined.
Fixpoint trace (max_bounces bounce : nat) (gs : list segment) (p : path) : traced :=
  if Nat.leb max_bounces bounce then Done p
  else match gs with
  | [] => Unfinished p
  | g :: r =>
    match iterate bounce g p with
    | Bounce q => trace max_bounces (S bounce) r q
    | Pass q => trace max_bounces bounce r q
    | Stop q => Done q
    | Nan => TNan
    | Undefined => TUndefined
    end
  end.
(* sample_radiance, renderer.ipp:484-490 *)
Definition sample_radiance (threshold : option R) (p : path) : list R := sadd (p_direct p) (clamp_indirect threshold (p_indirect p)).

(** Shadow rays, SceneView::evaluate_transmittance, scene_view.ipp:221-285 *)
(* one answer of intersect: distance, primitive, opacity and random number, transmission colour *)
Record crossing := Cr { c_t : R; c_prim : option prim; c_opacity : R; c_u : R; c_trans : list R }.
(* hits: successive answers of intersect; []: the ray meets nothing more *)
Fixpoint shadow (st : mstack) (tr : list R) (rem : R) (hits : list crossing) : outcome (list R) :=
  if Rleb rem 0 then Ok tr
  else
    let in_range := match hits with h :: _ => Rltb (c_t h) rem | [] => false end in
    let len := match hits with h :: _ => if in_range then c_t h else rem | [] => rem end in
    obind (top st) (fun active =>
    let tr1 := match active with Some m => smul tr (evaluate_transmittance (props m) len) | None => tr end in
    if match active with Some _ => Rleb (vmax tr1) 0 | None => false end then Ok (fill (List.length tr) 0)
    else match hits with
    | [] => Ok tr1
    | h :: r =>
      if in_range then
        if Rltb (c_opacity h) 1 && Rltb (c_opacity h) (c_u h) then
          obind (toggle medium st (c_prim h)) (fun st' => shadow st' tr1 (rem - c_t h) r)
        else if Rleb (vmax (c_trans h)) 0 then Ok (fill (List.length tr) 0)
        else obind (toggle medium st (c_prim h)) (fun st' => shadow st' (smul tr1 (c_trans h)) (rem - c_t h) r)
      else Ok tr1
    end).
End Path.
