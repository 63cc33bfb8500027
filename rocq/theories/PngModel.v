(* Model of include/huira_impl/images/io/png_io.ipp. libpng itself is not modelled: which bytes it asks for, when it reports an error and the rows it delivers
   are parameters; gAMA chunks hold 100000 times the gamma as an integer, as the PNG standard says. A memory block is its size and its bytes (DecodeModel),
   the host is little-endian. Floats are reals, every operation rounds with [fl]; the doubles of the gamma values are exact. *)
From Verif Require Import Common Vec3 Float32 DecodeModel PixelModel TiffModel TextureModel.
From Coq Require Import Reals.
From Flocq Require Import Core.
Open Scope Z_scope.

(** Reading the bytes *)
(* png_mem_read_callback_, 106-116; Throws is png_error. pos + byte_count is a size_t *)
Definition mem_callback (s : mem) (n : Z) : outcome (list Z * mem) :=
  if asz (m_data s) <? (m_pos s + n) mod 2 ^ 64 then Throws
  else l <- bytes_at (Z.to_nat n) (m_data s) (m_pos s) ;; Ok (l, Mem (m_data s) (m_pos s + n)).
Fixpoint pull (s : mem) (requests : list Z) : outcome (list Z * mem) :=
  match requests with
  | [] => Ok ([], s)
  | n :: r => a <- mem_callback s n ;; b <- pull (snd a) r ;; Ok (fst a ++ fst b, snd b)
  end.
(* png_error_handler_, 123-127: longjmp to the setjmp of read_png_raw_, 169-172, which then throws. Jumping over the destructor of a live object is undefined *)
Definition jump_back {A} (live_objects : nat) : outcome A := match live_objects with O => Throws | S _ => UB end.
Definition catching {A} (live_objects : nat) (x : outcome A) : outcome A := match x with Throws => jump_back live_objects | _ => x end.
(* read_png_raw_, 142-257: the requests of png_read_info, made before raw_data and row_pointers (230-231) exist, and those of png_read_image and png_read_end *)
Definition read_png_bytes (data : arr) (info image : list Z) : outcome (list Z) :=
  if asz data <? 8 then Throws else
  a <- catching 0 (pull (Mem data 8) info) ;;
  b <- catching 2 (pull (snd a) image) ;;
  Ok (fst a ++ fst b).

(** Colour space *)
Open Scope R_scope.
(* the chunks that matter; gAMA as stored *)
Record chunks := Chunks { has_icc : bool; has_srgb : bool; gama : option Z }.
(* detect_png_color_space_ and read_color_space, 37-70 and 260-287: the hint and gamma_value of the bundle *)
Definition detect (c : chunks) : hint * R :=
  if has_icc c then (HUnknown, 1)
  else if has_srgb c then (HsRGB, 1)
  else match gama c with
       | Some k => let g := IZR k / 100000 in
           if Rlt_dec (Rabs (g - 1)) (1 / 100) then (HLinear, 1)
           else if Rlt_dec (Rabs (g - 45455 / 100000)) (1 / 100) then (HsRGB, 1)
           else (HGamma, 1 / g)
       | None => (HsRGB, 1)
       end.
(* the chunks written, 577-594; png_set_gAMA rounds to the nearest stored value *)
Definition write_chunks (h : hint) (gamma : R) : chunks :=
  match h with
  | HsRGB => Chunks false true None
  | HLinear => Chunks false false (Some 100000%Z)
  | HGamma => Chunks false false (Some (Zfloor (100000 * (1 / gamma) + 1 / 2)))
  | HUnknown => Chunks false false None
  end.

(** Pixels *)
Open Scope Z_scope.
Definition maxval (depth : Z) : Z := 2 ^ depth - 1.
(* integer_to_float<T>(value) with the default range *)
Definition value (depth : Z) (v : Z) : R := uint_to_float (maxval depth) v 0 1.
Section Read.
(* width, height, bit depth after the expansions (8 or 16), gray or colour, alpha; 186-228 *)
Variables (w h depth : Z) (gray alpha : bool) (raw : arr).
Definition channels : Z := (if gray then 1 else 3) + (if alpha then 1 else 0).
Definition row_bytes : Z := w * channels * (depth / 8).
(* ptr[c] or read_u16(byte_ptr + 2 * c) *)
Definition png_sample (x y c : Z) : outcome R :=
  if depth =? 16 then v <- u16 raw (sz (y * row_bytes) + sz (x * channels * 2) + 2 * c) ;; Ok (value 16 v)
  else v <- rd raw (sz (y * row_bytes) + sz (x * channels) + c) ;; Ok (value 8 v).
(* read_image_png, 302-367; an Image of an area beyond int is undefined *)
Definition read_png (read_alpha : bool) : outcome (array (R * R * R) * option (array R)) :=
  n <- intv (w * h) ;;
  let with_alpha := (read_alpha && alpha)%bool in
  st <- for_ (Z.to_nat h) (fun y => for_ (Z.to_nat w) (fun x st =>
    i <- intv (y * w) ;;
    r <- png_sample x y 0 ;;
    p <- (if gray then Ok (r, r, r) else g <- png_sample x y 1 ;; b <- png_sample x y 2 ;; Ok (r, g, b)) ;;
    im <- wr (fst st) (i + x) p ;;
    if with_alpha then a <- png_sample x y (if gray then 1 else 3) ;; al <- wr (snd st) (i + x) a ;; Ok (im, al) else Ok (im, snd st)))
    (Arr n (fun _ => (0, 0, 0)%R), Arr n (fun _ => 1%R)) ;;
  Ok (fst st, if with_alpha then Some (snd st) else None).
(* read_image_png_mono, 396-455 *)
Definition read_png_mono : outcome (array R) :=
  n <- intv (w * h) ;;
  for_ (Z.to_nat h) (fun y => for_ (Z.to_nat w) (fun x im =>
    i <- intv (y * w) ;;
    r <- png_sample x y 0 ;;
    p <- (if gray then Ok r else g <- png_sample x y 1 ;; b <- png_sample x y 2 ;; Ok (fl (fl (fl (r + g) + b) / 3))) ;;
    wr im (i + x) p)) (Arr n (fun _ => 0%R)).
End Read.
(* the bit_depth of the bundle is left at its initial value, image.hpp:165 and 169-172 *)
Definition read_bit_depth : Z := 8.

(* write_image_png, 483-657: the rows given to png_write_row; row_data is reused. Image accesses are within w * h *)
Section Write.
Variables (w h depth : Z) (image : array (R * R * R)) (alpha : option (array R)).
Definition out_channels : Z := if alpha then 4 else 3.
Definition level (v : R) : outcome Z := float_to_uint (maxval depth) v 0 1.
Definition write_row (y : Z) (row : arr) : outcome arr :=
  for_ (Z.to_nat w) (fun x row =>
    p <- rd image (y * w + x) ;; let '(r, g, b) := p in
    l <- level r ;; row <- wr row (x * out_channels + 0) l ;;
    l <- level g ;; row <- wr row (x * out_channels + 1) l ;;
    l <- level b ;; row <- wr row (x * out_channels + 2) l ;;
    match alpha with
    | Some al => a <- rd al (y * w + x) ;; l <- level a ;; wr row (x * out_channels + 3) l
    | None => Ok row
    end) row.
Definition write_png : outcome (list arr) :=
  if (w =? 0) || (h =? 0) then Throws else
  if negb (depth =? 8) && negb (depth =? 16) then Throws else
  st <- for_ (Z.to_nat h) (fun y st => row <- write_row y (fst st) ;; Ok (row, snd st ++ [row])) (Arr (w * out_channels) (fun _ => 0), []) ;;
  Ok (snd st).
End Write.
(* the mono overload, 472-481 *)
Definition gray_image (image : array R) : array (R * R * R) := Arr (asz image) (fun i => (aget image i, aget image i, aget image i)).
