(* Models of the BMP, TGA and Radiance HDR decoders, include/huira_impl/images/io/{bmp,tga,hdr}_io.ipp.
   A memory block is its size and its bytes; reading or writing outside is the outcome UB, as is int overflow.
   std::size_t arithmetic is modulo 2^64. The host is little-endian. Log messages are not modelled, nor is running out
   of memory; a std::vector of more than 2^63 - 1 elements throws. *)
From Verif Require Import Common.
From Coq Require Import Reals.
Open Scope Z_scope.

Record array (A : Type) := Arr { asz : Z; aget : Z -> A }.
Arguments Arr {A}. Arguments asz {A}. Arguments aget {A}.
Notation arr := (array Z).
Definition of_list (l : list Z) : arr := Arr (Z.of_nat (List.length l)) (fun i => nth (Z.to_nat i) l 0).
Definition rd {A} (a : array A) (i : Z) : outcome A := if ((0 <=? i) && (i <? asz a)) then Ok (aget a i) else UB.
Definition wr {A} (a : array A) (i : Z) (v : A) : outcome (array A) :=
  if ((0 <=? i) && (i <? asz a)) then Ok (Arr (asz a) (fun j => if j =? i then v else aget a j)) else UB.
Notation "x <- a ;; b" := (obind a (fun x => b)) (at level 61, a at next level, right associativity).

(* for (int i = 0; i < n; ++i) s = f(i, s); *)
Fixpoint for_ {S : Type} (n : nat) (f : Z -> S -> outcome S) (s : S) : outcome S :=
  match n with O => Ok s | Datatypes.S k => s' <- for_ k f s ;; f (Z.of_nat k) s' end.
(* static_cast<size_t>, int results, vector sizes *)
Definition sz (z : Z) : Z := z mod 2 ^ 64.
Definition intv (z : Z) : outcome Z := if ((- 2 ^ 31 <=? z) && (z <? 2 ^ 31)) then Ok z else UB.
Definition new_vec (n : Z) : outcome arr := if 2 ^ 63 <=? n then Throws else Ok (Arr n (fun _ => 0)).
(* memcpy of 2 or 4 bytes into an integer *)
Definition u16 (a : arr) (i : Z) : outcome Z := b0 <- rd a i ;; b1 <- rd a (i + 1) ;; Ok (b0 + 256 * b1).
Definition u32 (a : arr) (i : Z) : outcome Z := l <- u16 a i ;; h <- u16 a (i + 2) ;; Ok (l + 65536 * h).
Definition i32 (a : arr) (i : Z) : outcome Z := v <- u32 a i ;; Ok (if 2 ^ 31 <=? v then v - 2 ^ 32 else v).

(** BMP *)
Record raw_image := Raw { r_w : Z; r_h : Z; r_ch : Z; r_bytes : arr; r_alpha : bool }.
(* the copy of one pixel, bmp_io.ipp:124-138 *)
Definition bmp_pixel (data : arr) (row fc oc : Z) (w y x : Z) (out : arr) : outcome arr :=
  si <- intv (x * fc) ;; yw <- intv (y * w) ;;
  let src := row + sz si in let dst := (sz yw + sz x) * oc in
  r <- rd data (src + 2) ;; out <- wr out (dst + 0) r ;;
  g <- rd data (src + 1) ;; out <- wr out (dst + 1) g ;;
  b <- rd data (src + 0) ;; out <- wr out (dst + 2) b ;;
  if oc =? 4 then a <- rd data (src + 3) ;; wr out (dst + 3) a else Ok out.
(* the body after the header fields are known, bmp_io.ipp:95-150 *)
Definition bmp_body (data : arr) (pixel_offset raw_width raw_height bpp : Z) : outcome raw_image :=
  let w := raw_width in let flip := 0 <? raw_height in
  h <- (if 0 <? raw_height then Ok raw_height else intv (- raw_height)) ;;
  let oc := if bpp =? 32 then 4 else 3 in let fc := bpp / 8 in
  wb <- intv (w * fc) ;;
  let t := (sz wb + 3) mod 2 ^ 64 in let stride := t - t mod 4 in
  let required := (pixel_offset + stride * sz h) mod 2 ^ 64 in
  if asz data <? required then Throws else
  hc <- intv (h * oc) ;;
  out <- new_vec ((sz w * sz hc) mod 2 ^ 64) ;;
  out <- for_ (Z.to_nat h) (fun y out =>
           let src_y := if flip then h - 1 - y else y in
           for_ (Z.to_nat w) (bmp_pixel data (pixel_offset + src_y * stride) fc oc w y) out) out ;;
  Ok (Raw w h oc out (bpp =? 32)).
(* read_bmp_raw_, bmp_io.ipp:41-150; 14 + dib_size is computed in uint32_t *)
Definition read_bmp (data : arr) : outcome raw_image :=
  if asz data <? 54 then Throws else
  b <- rd data 0 ;; m <- rd data 1 ;;
  if negb ((b =? 66) && (m =? 77)) then Throws else
  pixel_offset <- u32 data 10 ;; dib_size <- u32 data 14 ;;
  if dib_size <? 40 then Throws else
  if asz data <? (14 + dib_size) mod 2 ^ 32 then Throws else
  raw_width <- i32 data 18 ;; raw_height <- i32 data 22 ;; bpp <- u16 data 28 ;; compression <- u32 data 30 ;;
  if negb ((compression =? 0) || (compression =? 3)) then Throws else
  if negb ((bpp =? 24) || (bpp =? 32)) then Throws else
  bmp_body data pixel_offset raw_width raw_height bpp.

(** TGA *)
(* memcpy(&dst[d], src + s, n): reading dst[d] of an empty range is not checked when n = 0 *)
Fixpoint copy (n : nat) (src : arr) (s : Z) (dst : arr) (d : Z) : outcome arr :=
  match n with O => Ok dst
  | Datatypes.S k => dst <- copy k src s dst d ;; v <- rd src (s + Z.of_nat k) ;; wr dst (d + Z.of_nat k) v end.
(* the run of a run-length packet, tga_io.ipp:166-169: at most [count] more pixels, while fewer than [num] are decoded *)
Fixpoint rle_run (count : nat) (data : arr) (pos ib num dec : Z) (out : arr) : outcome (Z * arr) :=
  match count with O => Ok (dec, out)
  | Datatypes.S k => if dec <? num then
      out <- copy (Z.to_nat ib) data pos out (dec * ib) ;; rle_run k data pos ib num (dec + 1) out
    else Ok (dec, out) end.
(* the packet loop, tga_io.ipp:150-181; every packet decodes at least one pixel, so num iterations are enough *)
Fixpoint rle_loop (fuel : nat) (data : arr) (ib num pos dec : Z) (out : arr) : outcome arr :=
  if num <=? dec then Ok out else
  match fuel with O => UB
  | Datatypes.S k =>
    if asz data <=? pos then Throws else
    hd <- rd data pos ;;
    let pos := pos + 1 in let count := hd mod 128 + 1 in
    if 128 <=? hd then
      if asz data <? pos + ib then Throws else
      r <- rle_run (Z.to_nat count) data pos ib num dec out ;;
      rle_loop k data ib num (pos + ib) (fst r) (snd r)
    else
      let n := count * ib in
      if asz data <? pos + n then Throws else
      out <- copy (Z.to_nat n) data pos out (dec * ib) ;;
      rle_loop k data ib num (pos + n) (dec + count) out
  end.
(* the colour of one pixel, tga_io.ipp:205-240 *)
Record tga := Tga { t_mapped : bool; t_gray : bool; t_depth : Z; t_first : Z; t_entry : Z; t_fc : Z; t_ib : Z;
                    t_cmap : arr; t_pix : arr }.
Definition tga_resolve (t : tga) (src : Z) : outcome (Z * Z * Z * Z) :=
  if t_mapped t then
    index <- (if t_depth t =? 8 then rd (t_pix t) src else if t_depth t =? 16 then u16 (t_pix t) (src * 2) else Ok 0) ;;
    let p := ((index - t_first t) mod 65536) * t_entry t in
    r <- rd (t_cmap t) (p + 2) ;; g <- rd (t_cmap t) (p + 1) ;; b <- rd (t_cmap t) (p + 0) ;;
    a <- (if 4 <=? t_entry t then rd (t_cmap t) (p + 3) else Ok 255) ;; Ok (r, g, b, a)
  else if t_gray t then g <- rd (t_pix t) src ;; Ok (g, g, g, 255)
  else
    let p := src * t_ib t in
    r <- rd (t_pix t) (p + 2) ;; g <- rd (t_pix t) (p + 1) ;; b <- rd (t_pix t) (p + 0) ;;
    a <- (if 4 <=? t_fc t then rd (t_pix t) (p + 3) else Ok 255) ;; Ok (r, g, b, a).
(* one step of the conversion loop, tga_io.ipp:197-248 *)
Definition tga_pixel (t : tga) (w src_y y oc : Z) (x : Z) (out : arr) : outcome arr :=
  let dst := (y * w + x) * oc in
  c <- tga_resolve t (src_y * w + x) ;;
  let '(r, g, b, a) := c in
  out <- wr out (dst + 0) r ;; out <- wr out (dst + 1) g ;; out <- wr out (dst + 2) b ;;
  if oc =? 4 then wr out (dst + 3) a else Ok out.
Definition tga_convert (t : tga) (w h oc : Z) (top : bool) (out : arr) : outcome arr :=
  for_ (Z.to_nat h) (fun y => for_ (Z.to_nat w) (tga_pixel t w (if top then y else h - 1 - y) y oc)) out.
(* the sub-array data[p .. p + n), as vector::assign copies it *)
Definition slice (data : arr) (p n : Z) : outcome arr :=
  if ((0 <=? p) && (0 <=? n) && (p + n <=? asz data)) then Ok (Arr n (fun i => aget data (p + i))) else UB.
(* read_tga_raw_, tga_io.ipp:49-261 *)
Definition read_tga (data : arr) : outcome raw_image :=
  if asz data <? 18 then Throws else
  id_length <- rd data 0 ;; cm_type <- rd data 1 ;; itype <- rd data 2 ;;
  first <- u16 data 3 ;; cm_length <- u16 data 5 ;; entry_bits <- rd data 7 ;;
  w <- u16 data 12 ;; h <- u16 data 14 ;; depth <- rd data 16 ;; descriptor <- rd data 17 ;;
  let top := Z.testbit descriptor 5 in
  let rle := (itype =? 9) || (itype =? 10) || (itype =? 11) in
  let mapped := (itype =? 1) || (itype =? 9) in let gray := (itype =? 3) || (itype =? 11) in
  let truecolor := (itype =? 2) || (itype =? 10) in
  if negb truecolor && negb gray && negb mapped then Throws else
  let pos := 18 + id_length in
  if asz data <? pos then Throws else
  m <- (if (cm_type =? 1) && (0 <? cm_length) then
          let e := (entry_bits + 7) / 8 in
          if asz data <? pos + cm_length * e then Throws
          else c <- slice data pos (cm_length * e) ;; Ok (c, e, pos + cm_length * e)
        else Ok (Arr 0 (fun _ => 0), 0, pos)) ;;
  let '(cmap, entry, pos) := m in
  let fc := if mapped then entry else if gray then 1 else depth / 8 in
  let alpha := if mapped then entry_bits =? 32 else if gray then false else depth =? 32 in
  let oc := if alpha then 4 else 3 in
  let num := w * h in let ib := if mapped then depth / 8 else fc in
  pix <- (if rle then rle_loop (Z.to_nat num) data ib num pos 0 (Arr (num * ib) (fun _ => 0))
          else if asz data <? pos + num * ib then Throws else slice data pos (num * ib)) ;;
  out <- tga_convert (Tga mapped gray depth first entry fc ib cmap pix) w h oc top (Arr (num * oc) (fun _ => 0)) ;;
  Ok (Raw w h oc out alpha).

(** Radiance HDR: the scanline decoder, hdr_io.ipp, for a header that gave width and height; the text header is not
    modelled. The cursor is the position in the data. *)
(* the literal values of a channel, hdr_io.ipp:227-238: read and store while values are left and the row is not full *)
Fixpoint hdr_literal (count : nat) (data : arr) (w ch cur pos : Z) (line : arr) : outcome (Z * Z * arr) :=
  match count with O => Ok (cur, pos, line)
  | Datatypes.S k => if pos <? w then
      if asz data <=? cur then Throws else
      v <- rd data cur ;; line <- wr line (pos * 4 + ch) v ;; hdr_literal k data w ch (cur + 1) (pos + 1) line
    else Ok (cur, pos, line) end.
(* a run, hdr_io.ipp:214-225 *)
Fixpoint hdr_run (count : nat) (v w ch pos : Z) (line : arr) : outcome (Z * arr) :=
  match count with O => Ok (pos, line)
  | Datatypes.S k => if pos <? w then line <- wr line (pos * 4 + ch) v ;; hdr_run k v w ch (pos + 1) line
    else Ok (pos, line) end.
(* one channel, hdr_io.ipp:206-240; every iteration consumes a byte, so the bytes left are enough iterations *)
Fixpoint hdr_channel (fuel : nat) (data : arr) (w ch cur pos : Z) (line : arr) : outcome (Z * arr) :=
  if w <=? pos then Ok (cur, line) else
  match fuel with O => UB
  | Datatypes.S k =>
    if asz data <=? cur then Throws else
    byte <- rd data cur ;;
    let cur := cur + 1 in
    if 128 <? byte then
      if asz data <=? cur then Throws else
      v <- rd data cur ;;
      r <- hdr_run (Z.to_nat (byte - 128)) v w ch pos line ;;
      hdr_channel k data w ch (cur + 1) (fst r) (snd r)
    else
      r <- hdr_literal (Z.to_nat byte) data w ch cur pos line ;;
      let '(cur, pos, line) := r in hdr_channel k data w ch cur pos line
  end.
(* one scanline, hdr_io.ipp:192-256: the new cursor and the line's 4 * w bytes *)
Definition hdr_scanline (data : arr) (w : Z) (cur : Z) (line : arr) : outcome (Z * arr) :=
  if asz data <? cur + 4 then Throws else
  h0 <- rd data cur ;; h1 <- rd data (cur + 1) ;; h2 <- rd data (cur + 2) ;; h3 <- rd data (cur + 3) ;;
  let cur := cur + 4 in
  if ((h0 =? 2) && (h1 =? 2) && (h2 * 256 + h3 =? w)) then
    for_ 4 (fun ch s => hdr_channel (S (Z.to_nat (asz data - fst s))) data w ch (fst s) 0 (snd s)) (cur, line)
  else
    line <- wr line 0 h0 ;; line <- wr line 1 h1 ;; line <- wr line 2 h2 ;; line <- wr line 3 h3 ;;
    if 1 <? w then
      if asz data <? cur + (w - 1) * 4 then Throws else
      line <- copy (Z.to_nat ((w - 1) * 4)) data cur line 4 ;; Ok (cur + (w - 1) * 4, line)
    else Ok (cur, line).
(* rgbe_to_float_, hdr_io.ipp:59-69 *)
Definition rgbe (m e : Z) : R := if e =? 0 then 0%R else (IZR m * powerRZ 2 (e - 136))%R.
(* the conversion of one pixel, hdr_io.ipp:259-267 *)
Definition hdr_pixel (w y : Z) (line : arr) (x : Z) (out : array R) : outcome (array R) :=
  let dst := (y * w + x) * 3 in
  r <- rd line (x * 4 + 0) ;; g <- rd line (x * 4 + 1) ;; b <- rd line (x * 4 + 2) ;; e <- rd line (x * 4 + 3) ;;
  out <- wr out (dst + 0) (rgbe r e) ;; out <- wr out (dst + 1) (rgbe g e) ;; wr out (dst + 2) (rgbe b e).
(* all scanlines, hdr_io.ipp:180-268; the line buffer is reused from row to row *)
Definition read_hdr_rows (data : arr) (w h cur : Z) : outcome (array R) :=
  if (w <=? 0) || (h <=? 0) then Throws else
  r <- for_ (Z.to_nat h) (fun y s =>
         let '(cur, line, out) := s in
         t <- hdr_scanline data w cur line ;;
         out <- for_ (Z.to_nat w) (hdr_pixel w y (snd t)) out ;;
         Ok (fst t, snd t, out)) (cur, Arr (w * 4) (fun _ => 0), Arr (w * h * 3) (fun _ => 0%R)) ;;
  Ok (snd r).

(** The Radiance text header *)
(* read_hdr_line_, hdr_io.ipp:78-96: whether a line was read, its characters, and the new cursor; every iteration moves
   the cursor, so the bytes left are enough iterations *)
Fixpoint read_line (fuel : nat) (data : arr) (cur : Z) (line : list Z) : outcome (bool * list Z * Z) :=
  if asz data <=? cur then Ok (match line with [] => false | _ => true end, line, cur) else
  match fuel with O => UB
  | Datatypes.S k =>
    c <- rd data cur ;;
    if c =? 10 then Ok (true, line, cur + 1)
    else if c =? 13 then
      (if asz data <=? cur + 1 then Ok (true, line, cur + 1)
       else n <- rd data (cur + 1) ;; Ok (true, line, if n =? 10 then cur + 2 else cur + 1))
    else read_line k data (cur + 1) (line ++ [c])
  end.
Definition get_line (data : arr) (cur : Z) : outcome (bool * list Z * Z) := read_line (S (Z.to_nat (asz data - cur))) data cur [].
(* the loop over header lines up to the empty one, hdr_io.ipp:130-140; the FORMAT line only affects a log message *)
Fixpoint skip_header (fuel : nat) (data : arr) (cur : Z) : outcome Z :=
  match fuel with O => UB
  | Datatypes.S k =>
    r <- get_line data cur ;;
    let '(ok, line, cur) := r in
    if negb ok then Ok cur else match line with [] => Ok cur | _ => skip_header k data cur end
  end.
(* std::istringstream >> int and >> std::string on the rest of a line *)
Definition is_space (c : Z) : bool := (c =? 32) || ((9 <=? c) && (c <=? 13)).
Definition is_digit (c : Z) : bool := (48 <=? c) && (c <=? 57).
Fixpoint skip_ws (l : list Z) : list Z := match l with c :: t => if is_space c then skip_ws t else l | [] => [] end.
Fixpoint digits (l : list Z) (acc : Z) : Z * list Z := match l with c :: t => if is_digit c then digits t (acc * 10 + (c - 48)) else (acc, l) | [] => (acc, []) end.
Definition scan_int (l : list Z) : option (Z * list Z) :=
  let l := skip_ws l in
  let '(sg, l) := match l with 45 :: t => (-1, t) | 43 :: t => (1, t) | _ => (1, l) end in
  match l with
  | c :: _ => if is_digit c then let '(v, rest) := digits l 0 in
                if ((- 2 ^ 31 <=? sg * v) && (sg * v <? 2 ^ 31)) then Some (sg * v, rest) else None
              else None
  | [] => None end.
Fixpoint token (l : list Z) : list Z * list Z := match l with c :: t => if is_space c then ([], l) else let '(a, r) := token t in (c :: a, r) | [] => ([], []) end.
Definition scan_token (l : list Z) : option (list Z * list Z) := match token (skip_ws l) with ([], _) => None | r => Some r end.
(* parse_resolution, hdr_io.ipp:155-169: (height, width); the prefixes are two characters *)
Definition parse_resolution (line : list Z) (py px : list Z) : option (Z * Z) :=
  if list_eq_dec Z.eq_dec (firstn 2 line) py then
    match scan_int (skipn 2 line) with
    | Some (h, r) => match scan_token r with
      | Some (p, r) => match scan_int r with
        | Some (w, _) => if list_eq_dec Z.eq_dec p px then Some (h, w) else None
        | None => None end
      | None => None end
    | None => None end
  else None.
Definition minusY := [45; 89]. Definition plusY := [43; 89]. Definition minusX := [45; 88]. Definition plusX := [43; 88].
(* read_hdr_raw_, hdr_io.ipp:111-278: width, height and pixels *)
Definition read_hdr (data : arr) : outcome (Z * Z * array R) :=
  r <- get_line data 0 ;;
  let '(ok, line, cur) := r in
  if negb ok then Throws else
  if negb (if list_eq_dec Z.eq_dec (firstn 2 line) [35; 63] then true else false) then Throws else
  cur <- skip_header (S (Z.to_nat (asz data - cur))) data cur ;;
  r <- get_line data cur ;;
  let '(ok, line, cur) := r in
  if negb ok then Throws else
  let res := match parse_resolution line minusY plusX with Some v => Some v | None =>
             match parse_resolution line plusY plusX with Some v => Some v | None =>
             match parse_resolution line minusY minusX with Some v => Some v | None => parse_resolution line plusY minusX end end end in
  match res with None => Throws
  | Some (h, w) => out <- read_hdr_rows data w h cur ;; Ok (w, h, out) end.
