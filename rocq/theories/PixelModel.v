(* Models of include/huira_impl/images/io/convert_pixel.ipp (integer pixel conversion) and of the pixel path of
   include/huira_impl/images/io/fits_io.ipp. Floats are reals, each operation rounds with [fl] (binary32,
   nearest-even); NaN and infinities are the constructor NonFinite where the code tests for them. *)
From Verif Require Import Common Float32 DecodeModel.
From Coq Require Import Reals.
From Flocq Require Import Core.
Open Scope R_scope.

(* std::clamp *)
Definition clampR (x lo hi : R) : R := if Rlt_dec x lo then lo else if Rlt_dec hi x then hi else x.
(* static_cast<T>(float) for an integer type with values lo..hi: truncation toward zero, undefined when it does not fit *)
Definition cast_int (lo hi : Z) (x : R) : outcome Z := let t := Ztrunc x in if ((lo <=? t) && (t <=? hi))%Z then Ok t else UB.
(* integer_to_float, unsigned T with maximum M, convert_pixel.ipp:81-87 *)
Definition uint_to_float (M v : Z) (lo hi : R) : R :=
  let n := fl (fl (IZR v) / fl (IZR M)) in fl (lo + fl (n * fl (hi - lo))).
(* integer_to_float, signed T, convert_pixel.ipp:89-97 *)
Definition sint_to_float (m M v : Z) (lo hi : R) : R :=
  let tmin := fl (IZR m) in let tmax := fl (IZR M) in
  let n := fl (fl (fl (IZR v) - tmin) / fl (tmax - tmin)) in fl (lo + fl (n * fl (hi - lo))).
(* float_to_integer, unsigned, convert_pixel.ipp:99-105 *)
Definition float_to_uint (M : Z) (x lo hi : R) : outcome Z :=
  let n := clampR (fl (fl (x - lo) / fl (hi - lo))) 0 1 in
  cast_int 0 M (fl (fl (n * fl (IZR M)) + 1 / 2)).
(* float_to_integer, signed, convert_pixel.ipp:107-117 *)
Definition float_to_sint (m M : Z) (x lo hi : R) : outcome Z :=
  let tmin := fl (IZR m) in let tmax := fl (IZR M) in
  let n := clampR (fl (fl (x - lo) / fl (hi - lo))) 0 1 in
  cast_int m M (fl (fl (tmin + fl (n * fl (tmax - tmin))) + 1 / 2)).

(** FITS *)
Inductive fpix := Fin (x : R) | NonFinite.
(* bitpix_max, fits_io.ipp:400-413 *)
Definition bitpix_max (b : Z) : R := if (b =? 8)%Z then 255 else if (b =? 16)%Z then 32767 else if (b =? 32)%Z then 2147483647 else 1.
(* adc_max, fits_io.ipp:578-588; std::pow(2, bits) - 1 is exact for the bit depths in use *)
Definition adc_max (bits depth : Z) : R := if (0 <? bits)%Z then IZR (2 ^ bits - 1) else bitpix_max depth.
(* the buffer value of one pixel, fits_io.ipp:628-649, Simplified: the
   product with the float adc_max is not rounded *)
Definition blank_value (b : Z) : R := if (b =? 16)%Z then -32768 else if (b =? 32)%Z then -2147483648 else 0.
Definition write_value (bits depth : Z) (px : fpix) : fpix :=
  match px with
  | NonFinite => if (0 <? depth)%Z then Fin (blank_value depth) else NonFinite
  | Fin x => if (0 <? depth)%Z then Fin (clampR (x * adc_max bits depth) (if (depth =? 8)%Z then 1 else 0) (bitpix_max depth)) else Fin x
  end.
(* the loops that fill the buffer, fits_io.ipp:610, 624-650, and the one that fills the image, fits_io.ipp:515-520; an
   image is its row-major pixel vector. [disk] stands for what CFITSIO stores and gives back for each buffer value *)
Definition write_buffer (bits depth w h : Z) (img : array fpix) : outcome (array fpix) :=
  for_ (Z.to_nat h) (fun y => for_ (Z.to_nat w) (fun x buf =>
    px <- rd img (y * w + x)%Z ;; wr buf ((h - 1 - y) * w + x)%Z (write_value bits depth px))) (Arr (w * h)%Z (fun _ => Fin 0)).
(* the divisor, fits_io.ipp:493-503 *)
Definition divisor (saturate : option R) (depth : Z) : R :=
  match saturate with Some s => if Rlt_dec 0 s then s else bitpix_max depth | None => bitpix_max depth end.
(* fits_io.ipp:505-508. Simplified: the reciprocal and the product are not rounded *)
Definition read_value (saturate : option R) (depth : Z) (v : fpix) : fpix :=
  match v with Fin x => Fin (if (0 <? depth)%Z then x * / divisor saturate depth else x) | NonFinite => NonFinite end.
Definition read_buffer (saturate : option R) (depth w h : Z) (buf : array fpix) : outcome (array fpix) :=
  for_ (Z.to_nat h) (fun y => for_ (Z.to_nat w) (fun x img =>
    v <- rd buf ((h - 1 - y) * w + x)%Z ;; wr img (y * w + x)%Z (read_value saturate depth v))) (Arr (w * h)%Z (fun _ => Fin 0)).
(* the SATURATE keyword of the file, fits_io.ipp:600-605 *)
Definition written_saturate (bits depth : Z) (meta : option R) : option R :=
  match meta with Some s => Some s | None => if (0 <? depth)%Z then Some (adc_max bits depth) else None end.
(* write then read: [disk] maps the buffer values to what is read back from the file *)
Definition fits_round_trip (bits depth w h : Z) (meta : option R) (disk : fpix -> fpix) (img : array fpix) : outcome (array fpix) :=
  buf <- write_buffer bits depth w h img ;;
  read_buffer (written_saturate bits depth meta) depth w h (Arr (asz buf) (fun i => disk (aget buf i))).
