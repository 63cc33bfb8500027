(* Model of include/huira_impl/images/io/jpeg_io.ipp. TurboJPEG and stdio are not modelled: their answers are parameters. A memory block is its size and its
   bytes (DecodeModel). Floats are reals, every operation rounds with [fl]. Log messages are left out. *)
From Verif Require Import Common Float32 DecodeModel PixelModel TextureModel PngModel.
From Coq Require Import Reals.
Open Scope Z_scope.

(* what a call does besides its result: things taken and given back, and the bytes a written file holds once it is closed *)
Inductive resource := Handle | Buffer | File.
Inductive event := Acquire (r : resource) | Release (r : resource) | MadePath | FileHolds (l : list Z).

(** Reading *)
(* tjInitDecompress, tjDecompressHeader3 and tjDecompress2 (which fills width * channels * height bytes, pitch 0): None on failure; the last for gray and RGB *)
Record decoder := Decoder { d_init : bool; d_header : option (Z * Z); d_pixels : bool -> option (Z -> Z) }.
(* read_jpeg_raw_, 40-93. width * height * channels is an int *)
Definition read_jpeg_raw (d : decoder) (force_gray : bool) : list event * outcome (Z * Z * arr) :=
  if negb (d_init d) then ([], Throws) else
  match d_header d with
  | None => ([Acquire Handle; Release Handle], Throws)
  | Some (w, h) =>
      match (n <- intv (w * h) ;; intv (n * (if force_gray then 1 else 3))) with
      | Ok n =>
          match d_pixels d force_gray with
          | None => ([Acquire Handle; Release Handle], Throws)
          | Some f => ([Acquire Handle; Release Handle], Ok (w, h, Arr n f))
          end
      | Throws => ([Acquire Handle], Throws)
      | UB => ([Acquire Handle], UB)
      end
  end.
(* read_image_jpeg, 110-133; the image with its width and height. The bundle's hint is sRGB, image.hpp:169-172 *)
Definition jpeg_byte (raw : arr) (i : Z) : outcome R := v <- rd raw (sz i) ;; Ok (value 8 v).
Definition read_jpeg_pixels (w h : Z) (raw : arr) : outcome (array (R * R * R)) :=
  n <- intv (w * h) ;;
  for_ (Z.to_nat h) (fun y => for_ (Z.to_nat w) (fun x im =>
    let idx := (y * w + x) * 3 in
    r <- jpeg_byte raw (idx + 0) ;; g <- jpeg_byte raw (idx + 1) ;; b <- jpeg_byte raw (idx + 2) ;;
    i <- intv (y * w) ;; wr im (i + x) (r, g, b))) (Arr n (fun _ => (0, 0, 0)%R)).
Definition read_jpeg (d : decoder) : list event * outcome (Z * Z * array (R * R * R) * hint) :=
  let '(ev, r) := read_jpeg_raw d false in
  (ev, r <- r ;; let '(w, h, raw) := r in im <- read_jpeg_pixels w h raw ;; Ok (w, h, im, HsRGB)).
(* read_image_jpeg_mono, 163-174: one flat loop *)
Definition read_jpeg_gray_pixels (w h : Z) (raw : arr) : outcome (array R) :=
  n <- intv (w * h) ;;
  for_ (Z.to_nat n) (fun i im => v <- jpeg_byte raw i ;; wr im i v) (Arr n (fun _ => 0%R)).
Definition read_jpeg_mono (d : decoder) : list event * outcome (Z * Z * array R * hint) :=
  let '(ev, r) := read_jpeg_raw d true in
  (ev, r <- r ;; let '(w, h, raw) := r in im <- read_jpeg_gray_pixels w h raw ;; Ok (w, h, im, HsRGB)).

(** Writing *)
(* tjInitCompress; tjCompress2 with the quality, for the bytes given to it: the compressed bytes, or a failure that may leave a buffer behind; fopen;
   fwrite: how many bytes it accepts; fclose: how many of these reach the file *)
Inductive compressed := Done (l : list Z) | Failed (buffer_left : bool).
Record encoder := Encoder { e_init : bool; e_compress : arr -> Z -> compressed; e_open : bool; e_accepts : list Z -> nat; e_flushes : list Z -> nat }.
(* the samples, 226-242 *)
Definition jpeg_samples (w h : Z) (image : array (R * R * R)) : outcome arr :=
  for_ (Z.to_nat h) (fun y => for_ (Z.to_nat w) (fun x raw =>
    let idx := (y * w + x) * 3 in
    p <- rd image (y * w + x) ;; let '(r, g, b) := p in
    l <- level 8 r ;; raw <- wr raw (sz idx + 0) l ;;
    l <- level 8 g ;; raw <- wr raw (sz idx + 1) l ;;
    l <- level 8 b ;; wr raw (sz idx + 2) l)) (Arr (sz (w * h * 3)) (fun _ => 0)).
(* write_image_jpeg, 206-296 *)
Definition write_jpeg (e : encoder) (w h quality : Z) (image : array (R * R * R)) : list event * outcome unit :=
  if (w =? 0) || (h =? 0) then ([], Throws) else
  if (quality <? 1) || (100 <? quality) then ([], Throws) else
  match jpeg_samples w h image with
  | Ok raw =>
      if negb (e_init e) then ([MadePath], Throws) else
      match e_compress e raw quality with
      | Failed stays => ([MadePath; Acquire Handle] ++ (if stays then [Acquire Buffer] else []) ++ [Release Handle], Throws)
      | Done l =>
          if negb (e_open e) then ([MadePath; Acquire Handle; Acquire Buffer; Release Handle; Release Buffer], Throws) else
          let taken := firstn (e_accepts e l) l in
          ([MadePath; Acquire Handle; Acquire Buffer; Release Handle; Acquire File; FileHolds (firstn (e_flushes e taken) taken); Release File; Release Buffer],
           if negb (Nat.eqb (List.length taken) (List.length l)) then Throws else Ok tt)
      end
  | Throws => ([MadePath], Throws)
  | UB => ([MadePath], UB)
  end.
(* the mono overload, 308-319, goes through gray_image (PngModel) *)
