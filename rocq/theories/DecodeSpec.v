(* Specification vocabulary for the decoders. *)
From Verif Require Import Common DecodeModel.
From Coq Require Import Reals.
Open Scope Z_scope.

(* an input of bytes *)
Definition byte_data (d : arr) : Prop := 0 <= asz d < 2 ^ 63 /\ forall i, 0 <= aget d i < 256.
(* little-endian fields *)
Definition field16 (d : arr) (p : Z) : Z := aget d p + 256 * aget d (p + 1).
Definition field32 (d : arr) (p : Z) : Z := field16 d p + 65536 * field16 d (p + 2).
Definition signed32 (v : Z) : Z := if 2 ^ 31 <=? v then v - 2 ^ 32 else v.

(* BMP: the fields the format defines *)
Definition bmp_offset (d : arr) : Z := field32 d 10.
Definition bmp_width (d : arr) : Z := signed32 (field32 d 18).
Definition bmp_height (d : arr) : Z := signed32 (field32 d 22).
Definition bmp_bpp (d : arr) : Z := field16 d 28.
(* bytes of a row, padded to a multiple of four *)
Definition bmp_stride (d : arr) : Z := 4 * ((bmp_width d * (bmp_bpp d / 8) + 3) / 4).
(* where the file stores row y, counted from the top: bottom-up files have a positive height *)
Definition bmp_file_row (d : arr) (y : Z) : Z := if 0 <? bmp_height d then bmp_height d - 1 - y else y.
(* channel c (red, green, blue, alpha) of a stored pixel is at this place of blue, green, red, alpha *)
Definition bgra (c : Z) : Z := if c =? 3 then 3 else 2 - c.
Definition bmp_channel (d : arr) (x y c : Z) : Z :=
  aget d (bmp_offset d + bmp_file_row d y * bmp_stride d + x * (bmp_bpp d / 8) + bgra c).

(* what a decoded BMP is: size, channels, and every channel of every pixel where the format stores it; a file that is
   shorter than its header says is not decoded *)
Definition bmp_decoded (d : arr) (r : raw_image) : Prop :=
  r_w r = bmp_width d /\ r_h r = Z.abs (bmp_height d) /\ (r_alpha r = true <-> bmp_bpp d = 32) /\ r_ch r = bmp_bpp d / 8
  /\ asz (r_bytes r) = r_w r * r_h r * r_ch r
  /\ (0 < r_w r -> 0 < r_h r -> bmp_offset d + bmp_stride d * r_h r <= asz d)
  /\ forall x y c, 0 <= x < r_w r -> 0 <= y < r_h r -> 0 <= c < r_ch r ->
      aget (r_bytes r) ((y * r_w r + x) * r_ch r + c) = bmp_channel d x y c.
(* a file the format allows, in the sub-format the decoder announces: 24 or 32 bit, uncompressed or bit fields *)
Definition bmp_valid (d : arr) : Prop :=
  54 <= asz d /\ aget d 0 = 66 /\ aget d 1 = 77 /\ 40 <= field32 d 14 /\ 14 + field32 d 14 <= asz d
  /\ (field32 d 30 = 0 \/ field32 d 30 = 3) /\ (bmp_bpp d = 24 \/ bmp_bpp d = 32) /\ 0 <= bmp_width d
  /\ bmp_offset d + bmp_stride d * Z.abs (bmp_height d) <= asz d.
(* the header's sizes fit in the int arithmetic of the decoder *)
Definition bmp_int_sizes (d : arr) : Prop :=
  bmp_height d <> - 2 ^ 31 /\ - 2 ^ 31 <= bmp_width d * (bmp_bpp d / 8) < 2 ^ 31 /\ Z.abs (bmp_height d) * (bmp_bpp d / 8) < 2 ^ 31.

(* TGA fields *)
Definition tga_type (d : arr) : Z := aget d 2.
Definition tga_width (d : arr) : Z := field16 d 12.
Definition tga_height (d : arr) : Z := field16 d 14.
Definition tga_depth (d : arr) : Z := aget d 16.
Definition tga_first (d : arr) : Z := field16 d 3.
Definition tga_map_length (d : arr) : Z := field16 d 5.
Definition tga_entry_bits (d : arr) : Z := aget d 7.
Definition tga_entry_bytes (d : arr) : Z := (tga_entry_bits d + 7) / 8.
Definition tga_has_map (d : arr) : bool := (aget d 1 =? 1) && (0 <? tga_map_length d).
(* the colour map follows the header and the identification field, the pixels follow the colour map *)
Definition tga_map_pos (d : arr) : Z := 18 + aget d 0.
Definition tga_data_pos (d : arr) : Z := tga_map_pos d + (if tga_has_map d then tga_map_length d * tga_entry_bytes d else 0).
Definition tga_mapped (d : arr) : bool := (tga_type d =? 1) || (tga_type d =? 9).
Definition tga_gray (d : arr) : bool := (tga_type d =? 3) || (tga_type d =? 11).
Definition tga_truecolor (d : arr) : bool := (tga_type d =? 2) || (tga_type d =? 10).
Definition tga_rle (d : arr) : bool := (tga_type d =? 9) || (tga_type d =? 10) || (tga_type d =? 11).
(* bytes of a stored pixel *)
Definition tga_pixel_bytes (d : arr) : Z := if tga_gray d then 1 else tga_depth d / 8.
Definition tga_alpha (d : arr) : bool :=
  if tga_mapped d then tga_entry_bits d =? 32 else if tga_gray d then false else tga_depth d =? 32.
Definition tga_channels (d : arr) : Z := if tga_alpha d then 4 else 3.
(* the colour map index a stored pixel [px] holds, and channel c of that pixel *)
Definition tga_index (d : arr) (px : Z -> Z) : Z := if tga_depth d =? 8 then px 0 else px 0 + 256 * px 1.
Definition tga_channel (d : arr) (px : Z -> Z) (c : Z) : Z :=
  if tga_mapped d then aget d (tga_map_pos d + (tga_index d px - tga_first d) * tga_entry_bytes d + bgra c)
  else if tga_gray d then px 0 else px (bgra c).
Definition tga_file_row (d : arr) (y : Z) : Z := if Z.testbit (aget d 17) 5 then y else tga_height d - 1 - y.
(* the bytes p, p+1, ... of the input are the list l *)
Definition has {A} (d : array A) (p : Z) (l : list A) : Prop :=
  0 <= p /\ p + Z.of_nat (List.length l) <= asz d /\ forall i v, nth_error l i = Some v -> aget d (p + Z.of_nat i) = v.
(* a run-length coded pixel stream: run packets and raw packets of up to 128 pixels *)
Inductive packet := Run (n : nat) (px : list Z) | Lit (pxs : list (list Z)).
Definition packet_ok (ib : nat) (k : packet) : Prop :=
  match k with
  | Run n px => (1 <= n <= 128)%nat /\ List.length px = ib
  | Lit pxs => (1 <= List.length pxs <= 128)%nat /\ Forall (fun px => List.length px = ib) pxs
  end.
Definition packet_bytes (k : packet) : list Z :=
  match k with
  | Run n px => (127 + Z.of_nat n) :: px
  | Lit pxs => (Z.of_nat (List.length pxs) - 1) :: List.concat pxs
  end.
Definition packet_pixels (k : packet) : list (list Z) := match k with Run n px => repeat px n | Lit pxs => pxs end.

(* [stored i k] is byte k of pixel i: as the file has them, or as the packets expand *)
Definition tga_plain (d : arr) (stored : Z -> Z -> Z) : Prop :=
  tga_rle d = false /\ forall i k, stored i k = aget d (tga_data_pos d + i * tga_pixel_bytes d + k).
Definition tga_packed (d : arr) (stored : Z -> Z -> Z) : Prop :=
  tga_rle d = true /\ exists ks, Forall (packet_ok (Z.to_nat (tga_pixel_bytes d))) ks
    /\ has d (tga_data_pos d) (List.concat (map packet_bytes ks))
    /\ Z.of_nat (List.length (List.concat (map packet_pixels ks))) = tga_width d * tga_height d
    /\ forall i k, stored i k = nth (Z.to_nat k) (nth (Z.to_nat i) (List.concat (map packet_pixels ks)) []) 0.
Definition tga_decoded (d : arr) (stored : Z -> Z -> Z) (r : raw_image) : Prop :=
  r_w r = tga_width d /\ r_h r = tga_height d /\ r_alpha r = tga_alpha d /\ r_ch r = tga_channels d
  /\ asz (r_bytes r) = r_w r * r_h r * r_ch r
  /\ forall x y c, 0 <= x < r_w r -> 0 <= y < r_h r -> 0 <= c < r_ch r ->
      aget (r_bytes r) ((y * r_w r + x) * r_ch r + c) = tga_channel d (stored (tga_file_row d y * r_w r + x)) c.
(* the pixel formats the decoder handles: grey, true colour of 24 bits or more, and colour maps whose entries have 24 or
   32 bits, whose indices have 8 or 16 bits and all lie in the map *)
Definition tga_supported (d : arr) (stored : Z -> Z -> Z) : Prop :=
  tga_gray d = true \/ (tga_truecolor d = true /\ 24 <= tga_depth d)
  \/ (tga_mapped d = true /\ tga_has_map d = true /\ (tga_entry_bits d = 24 \/ tga_entry_bits d = 32)
      /\ (tga_depth d = 8 \/ tga_depth d = 16)
      /\ forall i, 0 <= i < tga_width d * tga_height d -> 0 <= tga_index d (stored i) - tga_first d < tga_map_length d).

(* HDR: a channel of a scanline as runs of up to 127 and literals of up to 128 values *)
Inductive chunk := CRun (n : nat) (v : Z) | CLit (vs : list Z).
Definition chunk_ok (k : chunk) : Prop :=
  match k with CRun n _ => (1 <= n <= 127)%nat | CLit vs => (1 <= List.length vs <= 128)%nat end.
Definition chunk_bytes (k : chunk) : list Z :=
  match k with CRun n v => [128 + Z.of_nat n; v] | CLit vs => Z.of_nat (List.length vs) :: vs end.
Definition chunk_values (k : chunk) : list Z := match k with CRun n v => repeat v n | CLit vs => vs end.

(* a row of an image of width w: four run-length coded channels, or plain pixels that do not look like the mark of a
   run-length coded row; [hdr_value row x k] is component k (red, green, blue, exponent) of pixel x *)
Inductive hdr_row := RleRow (chs : list (list chunk)) | FlatRow (px : list (list Z)).
Definition channel_values (c : list chunk) : list Z := List.concat (map chunk_values c).
Definition hdr_row_ok (w : Z) (r : hdr_row) : Prop :=
  match r with
  | RleRow chs => List.length chs = 4%nat /\ Forall (fun c => Forall chunk_ok c /\ Z.of_nat (List.length (channel_values c)) = w) chs /\ w < 65536
  | FlatRow px => Z.of_nat (List.length px) = w /\ Forall (fun p => List.length p = 4%nat) px
                  /\ forall a b rest, List.concat px = 2 :: 2 :: a :: b :: rest -> a * 256 + b <> w
  end.
Definition hdr_row_bytes (w : Z) (r : hdr_row) : list Z :=
  match r with
  | RleRow chs => [2; 2; w / 256; w mod 256] ++ List.concat (map (fun c => List.concat (map chunk_bytes c)) chs)
  | FlatRow px => List.concat px
  end.
Definition hdr_value (r : hdr_row) (x k : Z) : Z :=
  match r with
  | RleRow chs => nth (Z.to_nat x) (channel_values (nth (Z.to_nat k) chs [])) 0
  | FlatRow px => nth (Z.to_nat k) (nth (Z.to_nat x) px []) 0
  end.
(* the light a pixel of mantissa m and exponent e stands for *)
Definition radiance (m e : Z) : Rdefinitions.R := if e =? 0 then IZR 0 else (IZR m * powerRZ 2 (e - (128 + 8)))%R.
(* the text header: a line that starts with "#?", further lines, an empty line, and "-Y height +X width" *)
Definition text_line (l : list Z) : Prop := Forall (fun c => c <> 10 /\ c <> 13) l.
Definition decimal (l : list Z) (v : Z) : Prop :=
  l <> [] /\ Forall (fun c => 48 <= c <= 57) l /\ fold_left (fun a c => a * 10 + (c - 48)) l 0 = v.
Definition hdr_header (magic : list Z) (lines : list (list Z)) (hs ws : list Z) : list Z :=
  ([35; 63] ++ magic ++ [10]) ++ List.concat (map (fun l => l ++ [10]) lines) ++ [10]
  ++ ([45; 89; 32] ++ hs ++ [32; 43; 88; 32] ++ ws ++ [10]).
