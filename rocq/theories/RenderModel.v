(* Model of the remaining parts of Renderer, include/huira_impl/render/renderer.ipp, in exact real arithmetic and for
   one spectral channel unless said otherwise. *)
From Verif Require Import Vec3.

(** Trails of moving unresolved objects, renderer.ipp:746-842 *)
(* pixel distance of two parameters, renderer.ipp:788-790; pix t is the projection of the arc at t (lines 777-781) *)
Definition pdist (pix : R -> R * R) (a b : R) : R :=
  let dx := fst (pix b) - fst (pix a) in
  let dy := snd (pix b) - snd (pix a) in
  sqrt (dx * dx + dy * dy).
(* max_pixel_step, renderer.ipp:748 *)
Definition max_pixel_step : R := 3 / 4.
(* initial parameters, renderer.ipp:764-774; N is the number of samples of the arc *)
Definition sample_param (N k : nat) : R := if Nat.eqb N 1 then 0 else INR k / INR (N - 1).
Definition init_params (ts te : R) (N : nat) : list R :=
  ts :: filter (fun t => (Rltb ts t && Rltb t te)%bool) (map (sample_param N) (seq 0 N)) ++ [te].
(* one subdivision pass, renderer.ipp:787-805. The code walks the pairs from back to front and inserts behind the
   current index, so every pair of the list at the start of the pass is examined once; here from front to back *)
Fixpoint pass (pix : R -> R * R) (l : list R) : list R :=
  match l with
  | a :: ((b :: _) as r) =>
      if Rltb max_pixel_step (pdist pix a b) then a :: (a + b) / 2 :: pass pix r else a :: pass pix r
  | _ => l
  end.
(* did the pass subdivide anything, renderer.ipp:786, 804 *)
Fixpoint any_far (pix : R -> R * R) (l : list R) : bool :=
  match l with
  | a :: ((b :: _) as r) => (Rltb max_pixel_step (pdist pix a b) || any_far pix r)%bool
  | _ => false
  end.
(* the pass loop, renderer.ipp:784-809, limited to MAX_SUBDIVISIONS = 12 passes *)
Fixpoint subdivide (pix : R -> R * R) (fuel : nat) (l : list R) : list R :=
  match fuel with
  | O => l
  | S f => if any_far pix l then subdivide pix f (pass pix l) else l
  end.
(* dt, renderer.ipp:815-824 *)
Definition dt (ts te : R) (l : list R) (k : nat) : R :=
  let n := List.length l in
  if Nat.eqb n 1 then te - ts
  else if Nat.eqb k 0 then (nth 1 l 0 - nth 0 l 0) / 2
  else if Nat.eqb k (n - 1) then (nth k l 0 - nth (k - 1) l 0) / 2
  else (nth (k + 1) l 0 - nth (k - 1) l 0) / 2.
(* the weights of one visible interval, renderer.ipp:813-825 *)
Definition trail_params (pix : R -> R * R) (N : nat) (i : R * R) : list R :=
  subdivide pix 12 (init_params (fst i) (snd i) N).
Definition interval_weights (pix : R -> R * R) (N : nat) (i : R * R) : list R :=
  let l := trail_params pix N i in
  map (fun k => dt (fst i) (snd i) l k / (snd i - fst i)) (seq 0 (List.length l)).
(* all weights of one source, renderer.ipp:760 *)
Definition trail_weights (pix : R -> R * R) (N : nat) (intervals : list (R * R)) : list R :=
  flat_map (interval_weights pix N) intervals.

(** Interpolation over the temporal samples *)
(* interpolate_irradiances, renderer.ipp:600-612: None: read out of range *)
Definition floorN (x : R) : nat := Z.to_nat (Int_part x).
Definition lerp_index (n : nat) (t : R) : nat := Nat.min (floorN (t * INR (n - 1))) (n - 2).
Definition interpolate_irradiances (irr : list R) (t : R) : option R :=
  if Nat.eqb (List.length irr) 1 then nth_error irr 0
  else
    let scaled := t * INR (List.length irr - 1) in
    let lo := lerp_index (List.length irr) t in
    let frac := scaled - INR lo in
    match nth_error irr lo, nth_error irr (lo + 1) with
    | Some a, Some b => Some (a + frac * (b - a))
    | _, _ => None
    end.

(* Transform<float> with an opaque rotation, include/huira/core/transform.hpp; the default member values are those of
   a default-constructed transform *)
Record transform (rot : Type) := { tpos : vec3; trot : rot; tscale : vec3 }.
Arguments tpos {rot}. Arguments trot {rot}. Arguments tscale {rot}.
(* interpolate_transform, renderer.ipp:74-103. slerp is computed but the result of the static function
   Rotation::from_local_to_parent (include/huira/core/rotation.hpp:26-29) is discarded on line 96, so the rotation of
   the result stays the default one; scale interpolation is commented out (line 99) *)
Definition interpolate_transform {rot} (ident : rot) (l : list (transform rot)) (t : R) : option (transform rot) :=
  match l with
  | [] => Some {| tpos := vzero; trot := ident; tscale := V3 1 1 1 |}
  | [x] => Some x
  | _ =>
    let n := List.length l in
    let scaled := t * INR (n - 1) in
    let idx := lerp_index n t in
    let frac := scaled - INR idx in
    match nth_error l idx, nth_error l (idx + 1) with
    | Some a, Some b =>
        Some {| tpos := vadd (vscale (1 - frac) (tpos a)) (vscale frac (tpos b)); trot := ident; tscale := V3 1 1 1 |}
    | _, _ => None
    end
  end.

(** Sampling statistics of one pixel, renderer.ipp:172-524 *)
Record acc := { mean : R; M2 : R; taken : nat; total : R }.
Definition acc0 : acc := {| mean := 0; M2 := 0; taken := 0; total := 0 |}.
(* one accepted sample, renderer.ipp:494-506 *)
Definition acc_add (a : acc) (x : R) : acc :=
  let n := S (taken a) in
  let delta := x - mean a in
  let inv := 1 / INR n in
  let m := mean a + delta * inv in
  let delta2 := x - m in
  {| mean := m; M2 := M2 a + delta * delta2; taken := n; total := total a + x |}.
(* the sample loop, renderer.ipp:167-523: samples are given as a list (None: a NaN radiance, skipped at lines 489-491);
   stop decides the early exit from the running statistics (lines 509-520) and is consulted only for s >= min_spp - 1;
   s counts iterations *)
Fixpoint sample_loop (dynamic : bool) (min_spp : nat) (stop : acc -> bool) (s : nat) (xs : list (option R)) (a : acc) : acc :=
  match xs with
  | [] => a
  | None :: r => sample_loop dynamic min_spp stop (S s) r a
  | Some x :: r =>
      let a' := acc_add a x in
      if (dynamic && Nat.leb (min_spp - 1) s && stop a')%bool then a' else sample_loop dynamic min_spp stop (S s) r a'
  end.
(* the early exit test, renderer.ipp:512-518 *)
Definition stop_rule (threshold : R) (a : acc) : bool :=
  Rltb (M2 a * (1 / INR (taken a)) / (mean a + 1 / 10000)) threshold.
(* the averaged radiance, renderer.ipp:524-527: None when no sample was accepted (division by zero, NaN) *)
Definition averaged (a : acc) : option R :=
  if Nat.eqb (taken a) 0 then None else Some (total a * (1 / INR (taken a))).

(** Veiling glare, renderer.ipp:45-59 *)
Definition lsum (l : list R) : R := fold_left Rplus l 0.
Definition veil (alpha : R) (img : list R) : list R :=
  let unveiled := 1 - alpha in
  let bias := alpha * lsum img / INR (List.length img) in
  map (fun p => p * unveiled + bias) img.
(* CameraModel::set_veiling_glare, include/huira_impl/cameras/camera_model.ipp:342-350 (NaN is not a real) *)
Definition set_veiling_glare (alpha : R) : option (R * bool) :=
  if (Rltb alpha 0 || Rltb 1 alpha)%bool then None else Some (alpha, Rltb 0 alpha).
(* the block of render, renderer.ipp:44-60: applied when enabled *)
Definition apply_glare (setting : R * bool) (img : list R) : list R := if snd setting then veil (fst setting) img else img.

(** power_heuristic, renderer.ipp:64-72, with overflow: a float result above fmax becomes infinity *)
Inductive xr := Fin (r : R) | Inf | NaN.
Definition rnd (fmax x : R) : xr := if Rltb fmax x then Inf else Fin x.
Definition xadd (fmax : R) (a b : xr) : xr :=      (* non-negative operands *)
  match a, b with
  | NaN, _ => NaN | _, NaN => NaN
  | Inf, _ => Inf | _, Inf => Inf
  | Fin x, Fin y => rnd fmax (x + y)
  end.
Definition xdiv (a b : xr) : xr :=                 (* non-negative operands *)
  match a, b with
  | NaN, _ => NaN | _, NaN => NaN
  | Inf, Inf => NaN
  | Inf, Fin _ => Inf
  | Fin _, Inf => Fin 0
  | Fin x, Fin y => if Rltb 0 y then Fin (x / y) else if Rltb 0 x then Inf else NaN
  end.
Definition power_heuristic (fmax f g : R) : xr :=
  match rnd fmax (f * f) with
  | Inf => Fin 1
  | f2 => xdiv f2 (xadd fmax f2 (rnd fmax (g * g)))
  end.

(** Threads of path_trace_, renderer.ipp:140-160, 235, 394: the float [time] declared outside the parallel loop and
    this->sampler_ are shared by all tiles; the RandomSampler of line 157 is local to a tile *)
Inductive action :=
| SetTime (t : R)        (* time = sampler.get_1d(), line 176: t is the draw of the tile's own sampler *)
| Trace                  (* scene_view.intersect(ray, time), line 193, and the other uses of time *)
| SampleLight.           (* light->sample_li(..., this->sampler_), lines 235 and 394 *)
(* what a tile observes: the time used for a ray, the index of the draw taken from the shared sampler *)
Inductive obs := OTime (t : R) | ODraw (k : nat).
Record shared := { stime : R; sdraws : nat }.
Definition act (a : action) (s : shared) : shared * list obs :=
  match a with
  | SetTime t => ({| stime := t; sdraws := sdraws s |}, [])
  | Trace => (s, [OTime (stime s)])
  | SampleLight => ({| stime := stime s; sdraws := S (sdraws s) |}, [ODraw (sdraws s)])
  end.
(* a tile: actions still to do and what it has observed *)
Record tile_state := { todo : list action; seen : list obs }.
(* one step of tile i *)
Definition tile_step (i : nat) (s : shared) (ts : list tile_state) : shared * list tile_state :=
  match nth_error ts i with
  | Some {| todo := a :: r; seen := o |} =>
      let '(s', new) := act a s in (s', upd ts i {| todo := r; seen := o ++ new |})
  | _ => (s, ts)
  end.
Fixpoint run (sched : list nat) (s : shared) (ts : list tile_state) : shared * list tile_state :=
  match sched with
  | [] => (s, ts)
  | i :: r => let '(s', ts') := tile_step i s ts in run r s' ts'
  end.
(* the program of a tile: per sample, a time is drawn when there is motion blur, then the ray is traced and one light
   sample is taken per light (lines 175-177, 193, 388-394); rays has one draw per sample and bounce depth 1 *)
Definition tile_program (motion : bool) (lights : nat) (draws : list R) : list action :=
  flat_map (fun t => (if motion then [SetTime t] else []) ++ Trace :: repeat SampleLight lights) draws.
(* the state in which all tiles start, line 140 *)
Definition start (progs : list (list action)) : shared * list tile_state :=
  ({| stime := 0; sdraws := 0 |}, map (fun p => {| todo := p; seen := [] |}) progs).
Definition finished (ts : list tile_state) : Prop := forall t, In t ts -> todo t = [].
Definition image_of (sched : list nat) (progs : list (list action)) : list (list obs) :=
  map seen (snd (let '(s, ts) := start progs in run sched s ts)).
