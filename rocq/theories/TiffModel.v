(* Model of include/huira_impl/images/io/tiff_io.ipp. libtiff itself is not modelled: what TIFFReadTile and TIFFReadScanline deliver is a parameter.
   A memory block is its size and its bytes (DecodeModel); the host is little-endian. Floats are reals, every operation rounds with [fl]. *)
From Verif Require Import Common Float32 DecodeModel PixelModel.
From Coq Require Import Reals.
Open Scope Z_scope.

(** The memory callbacks handed to TIFFClientOpen *)
(* TiffMemState_, tiff_io.ipp:57-61: the buffer, its size is asz data, and the read position *)
Record mem := Mem { m_data : arr; m_pos : Z }.
(* conversions between the signed tsize_t and the unsigned toff_t, 64 bits *)
Definition signed64 (z : Z) : Z := let m := z mod 2 ^ 64 in if 2 ^ 63 <=? m then m - 2 ^ 64 else m.
(* std::memcpy(buf, data + pos, n) *)
Fixpoint bytes_at (n : nat) (a : arr) (i : Z) : outcome (list Z) :=
  match n with O => Ok [] | S k => b <- rd a i ;; r <- bytes_at k a (i + 1) ;; Ok (b :: r) end.
(* tiff_mem_read_, 66-76: the bytes put into buf and the returned count *)
Definition mem_read (s : mem) (n : Z) : outcome (list Z * Z * mem) :=
  let available := asz (m_data s) - signed64 (m_pos s) in
  let to_read := if n <? available then n else available in
  if 0 <? to_read
  then l <- bytes_at (Z.to_nat to_read) (m_data s) (m_pos s) ;; Ok (l, to_read, Mem (m_data s) ((m_pos s + to_read) mod 2 ^ 64))
  else Ok ([], to_read, s).
(* tiff_mem_seek_, 89-112; the result 2^64 - 1 is static_cast<toff_t>(-1) *)
Inductive whence := Seek_set | Seek_cur | Seek_end | Other.
Definition mem_seek (s : mem) (offset : Z) (w : whence) : Z * mem :=
  let to new_pos := if asz (m_data s) <? new_pos then (2 ^ 64 - 1, s) else (new_pos, Mem (m_data s) new_pos) in
  match w with
  | Seek_set => to offset
  | Seek_cur => to ((m_pos s + offset) mod 2 ^ 64)
  | Seek_end => to ((asz (m_data s) + offset) mod 2 ^ 64)
  | Other => (2 ^ 64 - 1, s)
  end.

(** Decoding *)
(* static_cast<int> of a std::size_t *)
Definition as_int (z : Z) : Z := let m := z mod 2 ^ 32 in if 2 ^ 31 <=? m then m - 2 ^ 32 else m.
Section Decode.
Context {A : Type}.
(* sample_to_float on the bytes of one sample, 315-333 *)
Variable convert : list Z -> A.
(* samples per pixel, bytes per sample, width, height, tile width, tile height *)
Variables spp bps w h tw th : Z.
(* TIFFReadTile(tx, ty, plane) and TIFFReadScanline(y, plane): the buffer, None on failure. A failing read leaves the buffer as it was *)
Variable read_tile : Z -> Z -> Z -> option arr.
Variable read_line : Z -> Z -> option arr.
Definition sample (buf : arr) (offset : Z) : outcome A := l <- bytes_at (Z.to_nat bps) buf (as_int offset) ;; Ok (convert l).
(* channels[ch][p] = v *)
Definition put (c : array (array A)) (ch p : Z) (v : A) : outcome (array (array A)) := x <- rd c ch ;; x <- wr x p v ;; wr c ch x.
(* the number of iterations of for (t = 0; t < n; t += step): t does not wrap because n < 2^31 (an Image of n pixels follows) *)
Definition tiles (n step : Z) : nat := Z.to_nat ((n + step - 1) / step).
(* 344-373 *)
Definition tiled_contig (st : arr * array (array A)) : outcome (arr * array (array A)) :=
  for_ (tiles h th) (fun j => for_ (tiles w tw) (fun i st =>
    let ty := j * th in let tx := i * tw in
    let buf := match read_tile tx ty 0 with Some b => b | None => fst st end in
    c <- for_ (Z.to_nat (Z.min th (h - ty))) (fun row => for_ (Z.to_nat (Z.min tw (w - tx))) (fun col c =>
           let offset := sz ((row * tw + col) * spp * bps) in
           for_ (Z.to_nat spp) (fun ch c => v <- sample buf (sz (offset + ch * bps)) ;; put c ch ((ty + row) * w + (tx + col)) v) c)) (snd st) ;;
    Ok (buf, c))) st.
(* 375-401 *)
Definition tiled_separate (st : arr * array (array A)) : outcome (arr * array (array A)) :=
  for_ (Z.to_nat spp) (fun ch => for_ (tiles h th) (fun j => for_ (tiles w tw) (fun i st =>
    let ty := j * th in let tx := i * tw in
    let buf := match read_tile tx ty ch with Some b => b | None => fst st end in
    c <- for_ (Z.to_nat (Z.min th (h - ty))) (fun row => for_ (Z.to_nat (Z.min tw (w - tx))) (fun col c =>
           v <- sample buf (sz ((row * tw + col) * bps)) ;; put c ch ((ty + row) * w + (tx + col)) v)) (snd st) ;;
    Ok (buf, c)))) st.
(* 408-427 *)
Definition stripped_contig (c : array (array A)) : outcome (array (array A)) :=
  for_ (Z.to_nat h) (fun y c =>
    match read_line y 0 with
    | None => Throws
    | Some buf => for_ (Z.to_nat w) (fun x c => let offset := sz (x * spp * bps) in
        for_ (Z.to_nat spp) (fun ch c => v <- sample buf (sz (offset + ch * bps)) ;; put c ch (y * w + x) v) c) c
    end) c.
(* 429-447 *)
Definition stripped_separate (c : array (array A)) : outcome (array (array A)) :=
  for_ (Z.to_nat spp) (fun ch => for_ (Z.to_nat h) (fun y c =>
    match read_line y ch with
    | None => Throws
    | Some buf => for_ (Z.to_nat w) (fun x c => v <- sample buf (sz (x * bps)) ;; put c ch (y * w + x) v) c
    end)) c.
(* 306-312, 339-449: channels(num_channels), each of width * height zeros; tile_buf starts with zeros *)
Inductive layout := Tiled (contig : bool) | Stripped (contig : bool).
Definition decode (zero : A) (tile_size : Z) (l : layout) : outcome (array (array A)) :=
  let c := Arr spp (fun _ => Arr (w * h) (fun _ => zero)) in
  match l with
  | Tiled contig => st <- (if contig then tiled_contig else tiled_separate) (Arr tile_size (fun _ => 0), c) ;; Ok (snd st)
  | Stripped contig => (if contig then stripped_contig else stripped_separate) c
  end.
End Decode.

(** Interpretation *)
Open Scope R_scope.
(* little-endian integer of a byte list *)
Fixpoint le (l : list Z) : Z := match l with [] => 0%Z | b :: r => (b + 256 * le r)%Z end.
(* sample_to_float for unsigned samples of 8 and 16 bits, 320-325 *)
Definition unit_value (M : Z) (v : Z) : R := fl (fl (IZR v) / fl (IZR M)).
(* photometric, 452-461: values with MinIsWhite are inverted except in the alpha channel *)
Inductive photometric := MinIsWhite | MinIsBlack | Rgb | Separated | YCbCr | Lab.
(* the extra samples of the file, 289-304: has_alpha looks at the first one only, alpha_index is the last channel *)
Inductive extra := Assoc_alpha | Unassoc_alpha | Unspecified.
Definition has_alpha (e : list extra) : bool := match e with Assoc_alpha :: _ => true | Unassoc_alpha :: _ => true | _ => false end.
Definition adjust (p : photometric) (alpha : bool) (n ch : Z) (v : R) : R :=
  match p with MinIsWhite => if (alpha && (ch =? n - 1)%Z)%bool then v else fl (1 - v) | _ => v end.
(* read_image_tiff_rgb for one pixel with the n channel values v, 499-548, with read_alpha = true: the colour and the alpha. Simplified: the
   loops over the pixels are independent of each other, so one pixel is modelled *)
Definition read_rgb (p : photometric) (e : list extra) (n : Z) (v : Z -> R) : outcome (R * R * R * option R) :=
  let alpha := has_alpha e in
  let colours := (if alpha then n - 1 else n)%Z in
  let c ch := adjust p alpha n ch (v ch) in
  if (negb (colours =? 1) && negb (colours =? 3))%bool%Z then Throws else
  let a := if alpha then Some (c (n - 1)%Z) else None in
  if (colours =? 1)%Z then Ok (c 0%Z, c 0%Z, c 0%Z, a) else Ok (c 0%Z, c 1%Z, c 2%Z, a).
(* read_image_tiff_mono, 579-620 *)
Definition read_mono (p : photometric) (e : list extra) (n : Z) (v : Z -> R) : outcome (R * option R) :=
  let alpha := has_alpha e in
  let colours := (if alpha then n - 1 else n)%Z in
  let c ch := adjust p alpha n ch (v ch) in
  if (negb (colours =? 1) && negb (colours =? 3))%bool%Z then Throws else
  let a := if alpha then Some (c (n - 1)%Z) else None in
  if (colours =? 1)%Z then Ok (c 0%Z, a) else Ok (fl (fl (fl (c 0%Z + c 1%Z) + c 2%Z) / 3), a).

(** Writing *)
(* one sample of write_image_tiff, 690-709 and 772-782: scaled, clamped, cast (towards zero); M = 2^bit_depth - 1 *)
Definition write_sample (M : Z) (v : R) : outcome Z := cast_int 0 M (clampR (fl (v * fl (IZR M))) 0 (fl (IZR M))).
