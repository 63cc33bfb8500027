(* Model of StarCatalog file I/O, include/huira_impl/stars/io/star_catalog.ipp, star_data.hpp and
   star_catalog.hpp, at byte level. Floats are their IEEE-754 bit patterns; comparisons are exact.
   Simplifications: opening the file succeeds; writing succeeds completely; logging omitted; the
   object representation is that of the usual little-endian LP64 ABIs (offsets in the comments). *)
From Verif Require Import Common Bytes.

(* struct StarData, star_data.hpp:13-29 (48 bytes, no padding), as bit patterns *)
Record star := Star { s_id : N; s_ra : N; s_dec : N; s_pmra : N; s_pmdec : N;
                      s_solid : N; s_temp : N; s_mag : N }.

(* binary32 pattern: is it a NaN? (std::isnan) *)
Definition f32_nan (b : N) : bool := N.ltb 2139095040 (N.land b 2147483647).   (* |b| > 0x7f800000 *)
(* order key of a non-NaN binary32 pattern: sign-magnitude, both zeros equal *)
Definition f32_key (b : N) : Z :=
  if N.testbit b 31 then - Z.of_N (N.land b 2147483647) else Z.of_N (N.land b 2147483647).
(* IEEE a <= b *)
Definition f32_le (a b : N) : bool := (negb (f32_nan a) && negb (f32_nan b) && Z.leb (f32_key a) (f32_key b))%bool.
(* IEEE a < b *)
Definition f32_lt (a b : N) : bool := (negb (f32_nan a) && negb (f32_nan b) && Z.ltb (f32_key a) (f32_key b))%bool.
(* +infinity *)
Definition f32_inf : N := 2139095040.

(* object representation of StarData: id@0 RA@8 DEC@16 pmRA@24 pmDEC@28 solid_angle@32 temperature@40 visual_magnitude@44 *)
Definition encode_star (s : star) : list N :=
  le_bytes 8 (s_id s) ++ le_bytes 8 (s_ra s) ++ le_bytes 8 (s_dec s) ++ le_bytes 4 (s_pmra s) ++
  le_bytes 4 (s_pmdec s) ++ le_bytes 8 (s_solid s) ++ le_bytes 4 (s_temp s) ++ le_bytes 4 (s_mag s).

(* bytes [off, off+n) as an unsigned integer *)
Definition field (l : list N) (off n : nat) : N := le_val (firstn n (skipn off l)).

(* reading the fields of a StarData from its representation *)
Definition decode_star (l : list N) : star :=
  Star (field l 0 8) (field l 8 8) (field l 16 8) (field l 24 4) (field l 28 4)
       (field l 32 8) (field l 40 4) (field l 44 4).

(* value-initialised StarData (star_data.hpp:15-29): zero except the NaN defaults *)
Definition default_star : star := Star 0 0 0 0 0 9221120237041090560 2143289344 2143289344.

(* HrscHeader, star_catalog.hpp:20-26: magic@0 version@4 pad@5-7 reserved@8 catalog_type@16 pad@17-23 star_count@24.
   The padding bytes are arbitrary. *)
Definition encode_header (pad1 pad2 : list N) (ctype count : N) : list N :=
  [72; 82; 83; 67]%N ++ [1%N] ++ pad1 ++ le_bytes 8 0 ++ [ctype] ++ pad2 ++ le_bytes 8 count.

(* StarCatalog::write_star_data, star_catalog.ipp:23-59: the stars kept by copy_if *)
Definition writable (l : list star) : list star := filter (fun s => negb (f32_nan (s_mag s))) l.
(* ... and the bytes written for the list [sorted] that std::sort produced *)
Definition write_file (pad1 pad2 : list N) (ctype : N) (sorted : list star) : list N :=
  encode_header pad1 pad2 ctype (N.of_nat (List.length sorted)) ++ flat_map encode_star sorted.

(* std::ifstream: position and failbit *)
Record stream := Stream { pos : N; failed : bool }.

(* istream::seekg(off): no effect when failbit is set; a negative offset fails *)
Definition seekg (st : stream) (off : N) : stream :=
  if failed st then st
  else let o := (off mod 18446744073709551616)%N in      (* uint64 arithmetic *)
       if N.leb 9223372036854775808 o then Stream (pos st) true   (* streamoff negative *)
       else Stream o false.

(* istream::read(buf, n): overwrites a prefix of buf by the bytes available; fails when short *)
Definition sread (file : list N) (st : stream) (n : nat) (buf : list N) : stream * list N :=
  if failed st then (st, buf)
  else let avail := firstn n (skipn (N.to_nat (pos st)) file) in
       (Stream (pos st + N.of_nat (List.length avail)) (Nat.ltb (List.length avail) n),
        avail ++ skipn (List.length avail) buf).

(* the binary search loop, star_catalog.ipp:84-96; [temp] is the buffer of StarData temp *)
Fixpoint search (file : list N) (max : N) (fuel : nat) (low high : N) (st : stream) (temp : list N)
  : outcome (N * stream) :=
  match fuel with
  | O => UB                                            (* never reached, see the proofs *)
  | S f =>
      if N.ltb low high then
        let mid := (low + (high - low) / 2)%N in
        let st1 := seekg st (32 + mid * 48) in
        let (st2, temp') := sread file st1 48 temp in
        if f32_le (field temp' 44 4) max
        then search file max f (mid + 1) high st2 temp'
        else search file max f low mid st2 temp'
      else Ok (low, st)
  end.

(* split a byte list into n records of 48 bytes *)
Fixpoint records (n : nat) (l : list N) : list (list N) :=
  match n with O => [] | S k => firstn 48 l :: records k (skipn 48 l) end.

(* StarCatalog::read_star_data, star_catalog.ipp:61-112: catalogue type and stars *)
Definition read_file (file : list N) (max : N) : outcome (N * list star) :=
  let (st1, hdr) := sread file (Stream 0 false) 32 (repeat 0%N 32) in
  if negb (N.eqb (nth 0 hdr 0%N) 72 && N.eqb (nth 1 hdr 0%N) 82 && N.eqb (nth 2 hdr 0%N) 83 && N.eqb (nth 3 hdr 0%N) 67)
  then Throws
  else if negb (N.eqb (nth 4 hdr 0%N) 1) then Throws
  else
    let count := field hdr 24 8 in
    obind (search file max 66 0 count st1 (encode_star default_star)) (fun r =>
    let '(low, st2) := r in
    let n := N.to_nat low in
    let st3 := seekg st2 32 in
    let (_, data) := sread file st3 (n * 48) (flat_map encode_star (repeat default_star n)) in
    Ok (nth 16 hdr 0%N, map decode_star (records n data))).

(* StarCatalog::clip_by_magnitude, star_catalog.ipp:12-21 *)
Definition clip (l : list star) (max : N) : list star :=
  filter (fun s => negb (f32_lt max (s_mag s) || f32_nan (s_mag s))) l.

(** Tycho-2 identifiers, huira/stars/io/tycho2_id.hpp *)

(* pack_tycho2_id, tycho2_id.hpp:7-11; arguments are uint16, uint16, uint8 *)
Definition pack (t1 t2 t3 : N) : N := N.lor (N.lor (N.shiftl t1 20) (N.shiftl t2 4)) t3.
(* unpack_tycho2_id, tycho2_id.hpp:13-19 *)
Definition unpack (id : N) : N * N * N :=
  (N.land (N.shiftr id 20) 16383, N.land (N.shiftr id 4) 65535, N.land id 15).
