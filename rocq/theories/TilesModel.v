(* Model of the tile loops of Renderer::path_trace_ and Renderer::render_unresolved_,
   include/huira_impl/render/renderer.ipp. Integers are unbounded (Z); pixel values are one spectral channel in
   exact real arithmetic; a buffer is a function with explicit bounds checks on every access, so an out-of-range
   access makes the model return None. *)
From Verif Require Import Vec3.
Open Scope Z_scope.

(* for (int i = a; i < b; ++i) *)
Definition zrange (a b : Z) : list Z := map (fun k => a + Z.of_nat k) (seq 0 (Z.to_nat (b - a))).

(* tiles_x, tiles_y, renderer.ipp:137-138 and 730-731 *)
Definition tiles (ts n : Z) : Z := (n + ts - 1) / ts.
(* num_tiles, renderer.ipp:139 and 732 *)
Definition num_tiles (ts w h : Z) : Z := tiles ts w * tiles ts h.

(* the pixels of one tile in loop order, renderer.ipp:146-158 *)
Definition tile_pixels (ts w h idx : Z) : list (Z * Z) :=
  let tile_y := idx / tiles ts w in
  let tile_x := idx mod tiles ts w in
  let x0 := tile_x * ts in
  let y0 := tile_y * ts in
  let x1 := Z.min (x0 + ts) w in
  let y1 := Z.min (y0 + ts) h in
  flat_map (fun y => map (fun x => (x, y)) (zrange x0 x1)) (zrange y0 y1).
(* path_trace_ visits the tiles in an order chosen by the scheduler, renderer.ipp:143-145 *)
Definition path_visits (w h : Z) (order : list Z) : list (Z * Z) := flat_map (tile_pixels 16 w h) order.

(** Buffers *)
Record buffer := { borg : Z * Z; bsize : Z * Z; bdata : Z -> Z -> R }.
(* Image::operator()(x, y) += v; a checked access, image.ipp:186-191 *)
Definition buf_add (b : buffer) (x y : Z) (v : R) : option buffer :=
  if (0 <=? x) && (x <? fst (bsize b)) && (0 <=? y) && (y <? snd (bsize b)) then
    Some {| borg := borg b; bsize := bsize b;
            bdata := fun x' y' => if (x' =? x) && (y' =? y) then (bdata b x' y' + v)%R else bdata b x' y' |}
  else None.
(* a sequence of additions *)
Fixpoint buf_adds (b : buffer) (ws : list (Z * Z * R)) : option buffer :=
  match ws with
  | [] => Some b
  | (x, y, v) :: r => match buf_add b x y v with Some b' => buf_adds b' r | None => None end
  end.

(** Items: a projected sample (ProjectedItem, renderer.ipp:737-744), with the floor and the rounding of its pixel
    position, its power (weight * irradiance * aperture area, renderer.ipp:893-894), its kernel and effective radius *)
Record pitem := { fx : Z; fy : Z; rx : Z; ry : Z; pw : R; kern : Z -> Z -> R; er : Z }.

(* the tile a sample is binned into, renderer.ipp:835-839; None when the sample is skipped by the range test of
   line 831 (for the floor of a coordinate: p < 0 or p > res) *)
Definition TILE : Z := 64.
Definition clampZ (v lo hi : Z) : Z := if v <? lo then lo else if hi <? v then hi else v.
Definition bin_of (w h : Z) (it : pitem) : Z :=
  let tx := clampZ (fx it / TILE) 0 (tiles TILE w - 1) in
  let ty := clampZ (fy it / TILE) 0 (tiles TILE h - 1) in
  ty * tiles TILE w + tx.
(* tile_bins[idx], in insertion order *)
Definition bin (w h : Z) (items : list pitem) (idx : Z) : list pitem :=
  filter (fun it => bin_of w h it =? idx) items.

(* local rectangle of a tile, renderer.ipp:866-877: (x0, y0, x1, y1) *)
Definition local_rect (w h margin idx : Z) : Z * Z * Z * Z :=
  let tile_y := idx / tiles TILE w in
  let tile_x := idx mod tiles TILE w in
  let tx0 := tile_x * TILE in
  let ty0 := tile_y * TILE in
  (Z.max 0 (tx0 - margin), Z.max 0 (ty0 - margin), Z.min w (tx0 + TILE + margin), Z.min h (ty0 + TILE + margin)).

(* the additions of one stamp, renderer.ipp:909-960 (the two branches run the same loops; kernel is a square
   image of side 2 * R + 1, R = stamp_radius); None: a kernel read out of range *)
Definition kernel_read (R : Z) (k : Z -> Z -> Rdefinitions.R) (x y : Z) : option Rdefinitions.R :=
  if (0 <=? x) && (x <? 2 * R + 1) && (0 <=? y) && (y <? 2 * R + 1) then Some (k x y) else None.
Fixpoint sequence {A} (l : list (option A)) : option (list A) :=
  match l with
  | [] => Some []
  | Some a :: r => match sequence r with Some t => Some (a :: t) | None => None end
  | None :: _ => None
  end.
Definition stamp_writes (Rs : Z) (rect : Z * Z * Z * Z) (it : pitem) : option (list (Z * Z * Rdefinitions.R)) :=
  let '(x0, y0, x1, y1) := rect in
  let k_offset := Rs - er it in
  let crop := 2 * er it + 1 in
  let sx := fx it - er it in
  let sy := fy it - er it in
  let kxb := Z.max 0 (x0 - sx) in
  let kxe := Z.min crop (x1 - sx) in
  let kyb := Z.max 0 (y0 - sy) in
  let kye := Z.min crop (y1 - sy) in
  sequence (flat_map (fun ky => map (fun kx =>
     match kernel_read Rs (kern it) (kx + k_offset) (ky + k_offset) with
     | Some kv => Some (sx + kx - x0, sy + ky - y0, (pw it * kv)%R)
     | None => None
     end) (zrange kxb kxe)) (zrange kyb kye)).
(* the additions of one sample without a PSF, renderer.ipp:961-967 *)
Definition delta_writes (rect : Z * Z * Z * Z) (it : pitem) : option (list (Z * Z * Rdefinitions.R)) :=
  let '(x0, y0, x1, y1) := rect in
  if (x0 <=? rx it) && (rx it <? x1) && (y0 <=? ry it) && (ry it <? y1) then
    Some [(rx it - x0, ry it - y0, pw it)] else Some [].

(* occlusion test, renderer.ipp:884-891: without depth channel every sample is drawn; with one, the depth at the
   truncated position is read with Image::operator()(Pixel), image.ipp:240-248, at linear index y * w + x; depth gives
   isinf of each stored depth; None: the read is outside the w * h stored values *)
Definition unobstructed (w h : Z) (depth : option (Z -> bool)) (it : pitem) : option bool :=
  match depth with
  | None => Some true
  | Some isinf =>
      let i := fy it * w + fx it in
      if (0 <=? i) && (i <? w * h) then Some (isinf i) else None
  end.
(* additions of one sample, renderer.ipp:880-968 *)
Definition item_writes (w h Rs : Z) (depth : option (Z -> bool)) (rect : Z * Z * Z * Z) (it : pitem) :
    option (list (Z * Z * Rdefinitions.R)) :=
  match unobstructed w h depth it with
  | None => None
  | Some false => Some []
  | Some true => if 0 <? Rs then stamp_writes Rs rect it else delta_writes rect it
  end.
(* one tile, renderer.ipp:855-977: None is a fault, Some None an empty bin *)
Definition render_tile (w h Rs : Z) (depth : option (Z -> bool)) (items : list pitem) (idx : Z) : option (option buffer) :=
  match bin w h items idx with
  | [] => Some None
  | b =>
      let rect := local_rect w h Rs idx in
      let '(x0, y0, x1, y1) := rect in
      match sequence (map (item_writes w h Rs depth rect) b) with
      | None => None
      | Some ws =>
          match buf_adds {| borg := (x0, y0); bsize := (x1 - x0, y1 - y0); bdata := fun _ _ => 0%R |} (List.concat ws) with
          | Some buf => Some (Some buf)
          | None => None
          end
      end
  end.

(* additions of one tile buffer to the image, renderer.ipp:979-1012; values equal to zero are skipped there, which
   does not change the sum, and rows are independent of each other *)
Definition combine_writes (b : option buffer) : list (Z * Z * Rdefinitions.R) :=
  match b with
  | None => []
  | Some b =>
      let '(ox, oy) := borg b in
      let '(lw, lh) := bsize b in
      flat_map (fun y => map (fun lx => (ox + lx, y, bdata b lx (y - oy))) (zrange 0 lw)) (zrange oy (oy + lh))
  end.
(* render_unresolved_ from binned samples to the power image, renderer.ipp:842-1012. Samples outside the range test
   are assumed to have been skipped already (line 831) *)
Definition render_unresolved (w h Rs : Z) (depth : option (Z -> bool)) (items : list pitem) : option buffer :=
  match sequence (map (render_tile w h Rs depth items) (zrange 0 (num_tiles TILE w h))) with
  | None => None
  | Some bufs =>
      buf_adds {| borg := (0, 0); bsize := (w, h); bdata := fun _ _ => 0%R |} (List.concat (map combine_writes bufs))
  end.
