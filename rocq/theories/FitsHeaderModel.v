(* Model of the header side of write_image_fits and read_image_fits, images/io/fits_io.ipp, over CFITSIO's documented
   interface: a header is an ordered list of cards; fits_update_key_* replaces the value of the first card of that name (and its
   comment unless the new one is null) or appends a card; fits_write_comment/history append cards of at most 72 characters;
   fits_read_key_* reads the first card of that name. A number is written in E notation with a given number of decimals and read
   back with correctly rounded conversions. Strings lose trailing blanks and everything beyond 68 characters. Not modelled: quotes
   inside strings, lower case and long key names (HIERARCH), card comments that do not fit, CFITSIO failures other than a text
   where a number is read, and the pixel block (PixelModel.v). *)
From Coq Require Import Reals ZArith String Ascii List Bool Lra.
From Flocq Require Import Core.
From Verif Require Import Common.
Import ListNotations.
Open Scope string_scope.

(** ** CFITSIO *)
Inductive hval := HStr (s : string) | HNum (x : R) | HInt (z : Z) | HBool (b : bool).
Inductive card := Key (k : string) (v : hval) (comment : string) | Comment (s : string) | History (s : string).
Definition header := list card.
Definition radix10 : radix := Build_radix 10 eq_refl.
(* the value of the decimal text with p significant digits, %.{p-1}E; conversions to double and float *)
Definition digits (p : Z) (x : R) : R := round radix10 (FLX_exp p) ZnearestE x.
Definition to_double (x : R) : R := round radix2 (FLT_exp (-1074) 53) ZnearestE x.
Definition to_float (x : R) : R := round radix2 (FLT_exp (-149) 24) ZnearestE x.
Fixpoint strip_blanks (l : list ascii) : list ascii :=
  match l with [] => [] | a :: r => match strip_blanks r with [] => if (a =? " ")%char then [] else [a] | r' => a :: r' end end.
Definition stored_string (s : string) : string := string_of_list_ascii (strip_blanks (firstn 68 (list_ascii_of_string s))).
(* fits_update_key_* *)
Fixpoint update_key (h : header) (k : string) (v : hval) (c : option string) : header :=
  match h with
  | [] => [Key k v (match c with Some s => s | None => "" end)]
  | Key k' v' c' :: r => if (k =? k')%string then Key k' v (match c with Some s => s | None => c' end) :: r else Key k' v' c' :: update_key r k v c
  | x :: r => x :: update_key r k v c
  end.
Fixpoint find_key (h : header) (k : string) : option hval :=
  match h with [] => None | Key k' v _ :: r => if (k =? k')%string then Some v else find_key r k | _ :: r => find_key r k end.
(* fits_write_comment, fits_write_history: the text in pieces of 72 characters; the card is read without trailing blanks *)
Fixpoint pieces (fuel : nat) (l : list ascii) : list (list ascii) :=
  match fuel, l with S f, _ :: _ => firstn 72 l :: pieces f (skipn 72 l) | _, _ => [] end.
Definition free_text (s : string) : list string := let l := list_ascii_of_string s in map (fun p => string_of_list_ascii (strip_blanks p)) (pieces (List.length l) l).
(* fits_create_img(bitpix, 2, {w, h}): the mandatory keys, EXTEND and the two standard comments *)
Definition std_comments : list string :=
  ["  FITS (Flexible Image Transport System) format is defined in 'Astronomy"; "  and Astrophysics', volume 376, page 359; bibcode: 2001A&A...376..359H"].
Definition create_img (bitpix w h : Z) : header :=
  ([Key "SIMPLE" (HBool true) ""; Key "BITPIX" (HInt bitpix) ""; Key "NAXIS" (HInt 2) ""; Key "NAXIS1" (HInt w) ""; Key "NAXIS2" (HInt h) ""; Key "EXTEND" (HBool true) ""] ++ map Comment std_comments)%list.

(** ** FitsMetadata, images/io/fits_metadata.hpp:18-108 *)
Record keyword := Kw { kw_key : string; kw_value : hval; kw_comment : string }.
Record meta := Meta { object : string; telescop : string; instrume : string; observer : string; date_obs : string; origin : string;
  exptime : R; filter : string; bunit : string; datamin : option R; datamax : option R; saturate : option R;
  crpix1 : option R; crpix2 : option R; crval1 : option R; crval2 : option R; cdelt1 : option R; cdelt2 : option R;
  ctype1 : string; ctype2 : string; equinox : R; radesys : string; comments : list string; history : list string; custom : list keyword }.
Definition some {A} (o : option A) : bool := match o with Some _ => true | None => false end.
(* has_wcs, fits_metadata.hpp:106-109 *)
Definition has_wcs (m : meta) : bool := some (crpix1 m) || some (crval1 m) || some (cdelt1 m) || negb (ctype1 m =? "")%string.

(** ** Writing *)
Definition op := header -> header.
Definition seq (l : list op) (h : header) : header := fold_left (fun h f => f h) l h.
(* write_string_key, write_double_key, write_float_key, write_int_key, write_bool_key, fits_io.ipp:56-91 *)
Definition string_key (k s : string) (c : option string) : op := fun h => if (s =? "")%string then h else update_key h k (HStr (stored_string s)) c.
Definition double_key (k : string) (x : R) (c : option string) : op := fun h => update_key h k (HNum (digits 11 x)) c.
Definition float_key (k : string) (x : R) (c : option string) : op := fun h => update_key h k (HNum (digits 7 x)) c.
Definition int_key (k : string) (z : Z) (c : option string) : op := fun h => update_key h k (HInt z) c.
Definition bool_key (k : string) (b : bool) (c : option string) : op := fun h => update_key h k (HBool b) c.
Definition opt_key (k : string) (x : option R) (c : string) : op := match x with Some x => double_key k x (Some c) | None => fun h => h end.
(* write_custom_keyword, fits_io.ipp:93-112 *)
Definition custom_key (w : keyword) : op :=
  let c := if (kw_comment w =? "")%string then None else Some (kw_comment w) in
  match kw_value w with HStr s => string_key (kw_key w) s c | HNum x => double_key (kw_key w) x c | HInt z => int_key (kw_key w) z c | HBool b => bool_key (kw_key w) b c end.
(* write_fits_metadata, fits_io.ipp:115-183 *)
Definition write_metadata (m : meta) : op := fun h =>
  let h := seq [string_key "OBJECT" (object m) (Some "Target name"); string_key "TELESCOP" (telescop m) (Some "Telescope / system"); string_key "INSTRUME" (instrume m) (Some "Instrument");
    string_key "OBSERVER" (observer m) (Some "Observer / author"); string_key "DATE-OBS" (date_obs m) (Some "Observation date (ISO)"); string_key "ORIGIN" (origin m) (Some "File origin / software");
    (fun h => if Rlt_dec 0 (exptime m) then float_key "EXPTIME" (exptime m) (Some "[s] Exposure time") h else h);
    string_key "FILTER" (filter m) (Some "Filter name"); string_key "BUNIT" (bunit m) (Some "Physical unit of pixel values");
    opt_key "DATAMIN" (datamin m) "Minimum pixel value"; opt_key "DATAMAX" (datamax m) "Maximum pixel value"; opt_key "SATURATE" (saturate m) "[adu] Detector saturation level"] h in
  let h := if has_wcs m then seq [opt_key "CRPIX1" (crpix1 m) "[pixel] Reference pixel X"; opt_key "CRPIX2" (crpix2 m) "[pixel] Reference pixel Y";
      opt_key "CRVAL1" (crval1 m) "[deg] RA  at ref pixel"; opt_key "CRVAL2" (crval2 m) "[deg] Dec at ref pixel"; opt_key "CDELT1" (cdelt1 m) "[deg/pixel] Plate scale X"; opt_key "CDELT2" (cdelt2 m) "[deg/pixel] Plate scale Y";
      string_key "CTYPE1" (ctype1 m) (Some "Coordinate type axis 1"); string_key "CTYPE2" (ctype2 m) (Some "Coordinate type axis 2");
      double_key "EQUINOX" (equinox m) (Some "Equinox of coordinates"); string_key "RADESYS" (radesys m) (Some "Reference frame")] h else h in
  let h := (h ++ map Comment (flat_map free_text (comments m)))%list in
  let h := (h ++ map History (flat_map free_text (history m)))%list in
  seq (map custom_key (custom m)) h.

(* bitpix_max, fits_blank_value, fits_io.ipp:400-426 *)
Definition bitpix_max (b : Z) : R := if (b =? 8)%Z then 255 else if (b =? 16)%Z then 32767 else if (b =? 32)%Z then 2147483647 else 1.
Definition blank_value (b : Z) : Z := if (b =? 16)%Z then -32768 else if (b =? 32)%Z then -2147483648 else 0.
Definition flt_max : R := ((IZR (2 ^ 24) - 1) * IZR (2 ^ 104))%R.
Definition valid_depth (b : Z) : bool := existsb (Z.eqb b) [8; 16; 32; -32; -64]%Z.
(* the pixels as real numbers, None where they are not finite; arithmetic on them is exact *)
Record picture := Pic { p_w : Z; p_h : Z; p_bits : Z; pixels : list (option R) }.
Definition adc_max (b bits : Z) : R := if (0 <? bits)%Z then (powerRZ 2 bits - 1)%R else bitpix_max b.
Definition stored_value (b bits : Z) (x : R) : R :=
  if (0 <? b)%Z then Rmin (bitpix_max b) (Rmax (if (b =? 8)%Z then 1 else 0) (x * adc_max b bits))%R else x.
Definition finite_values (b : Z) (p : picture) : list R := flat_map (fun o => match o with Some x => [stored_value b (p_bits p) x] | None => [] end) (pixels p).
(* write_image_fits, fits_io.ipp:540-672, its header; the set of defaults is 593-606 *)
Definition with_defaults (b : Z) (p : picture) (m : meta) : meta :=
  if (0 <? b)%Z then
    Meta (object m) (telescop m) (instrume m) (observer m) (date_obs m) (origin m) (exptime m) (filter m) (if (bunit m =? "")%string then "adu" else bunit m)
      (datamin m) (datamax m) (match saturate m with Some x => Some x | None => Some (adc_max b (p_bits p)) end)
      (crpix1 m) (crpix2 m) (crval1 m) (crval2 m) (cdelt1 m) (cdelt2 m) (ctype1 m) (ctype2 m) (equinox m) (radesys m) (comments m) (history m) (custom m)
  else m.
Definition write_header (b : Z) (p : picture) (m : meta) : outcome header :=
  match pixels p with [] => Throws | _ =>
  if negb (valid_depth b) then Throws else
  let m := with_defaults b p m in
  let h := write_metadata m (create_img b (p_w p) (p_h p)) in
  let lo := fold_left Rmin (finite_values b p) flt_max in let hi := fold_left Rmax (finite_values b p) (- flt_max)%R in
  let h := match datamin m with None => double_key "DATAMIN" lo (Some "Minimum pixel value") h | Some _ => h end in
  let h := match datamax m with None => double_key "DATAMAX" hi (Some "Maximum pixel value") h | Some _ => h end in
  Ok (if ((0 <? b)%Z && existsb (fun o => negb (some o)) (pixels p))%bool then update_key h "BLANK" (HInt (blank_value b)) (Some "Value representing undefined pixels") else h)
  end.

(** ** Reading *)
Section Reading.
(* the texts that CFITSIO reads as numbers, and how it shows numbers as text *)
Variable number : string -> option R.
Variable show : hval -> string.
(* read_string_key, read_double_key, read_float_key, fits_io.ipp:187-222 *)
Definition read_string (h : header) (k : string) : string := match find_key h k with None => "" | Some (HStr s) => s | Some v => show v end.
Definition as_number (v : hval) : option R := match v with HNum x => Some x | HInt z => Some (IZR z) | HStr s => number s | HBool _ => None end.
Definition read_double (h : header) (k : string) : outcome (option R) :=
  match find_key h k with None => Ok None | Some v => match as_number v with Some x => Ok (Some (to_double x)) | None => Throws end end.
Definition read_float (h : header) (k : string) : outcome R :=
  match find_key h k with None => Ok 0%R | Some v => match as_number v with Some x => Ok (to_float (to_double x)) | None => Throws end end.
(* fits_io.ipp:287-293 *)
Definition known : list string := ["SIMPLE"; "BITPIX"; "NAXIS"; "NAXIS1"; "NAXIS2"; "NAXIS3"; "EXTEND"; "BZERO"; "BSCALE"; "END"; "OBJECT"; "TELESCOP"; "INSTRUME"; "OBSERVER";
  "DATE-OBS"; "ORIGIN"; "EXPTIME"; "FILTER"; "BUNIT"; "DATAMIN"; "DATAMAX"; "SATURATE"; "CRPIX1"; "CRPIX2"; "CRVAL1"; "CRVAL2"; "CDELT1"; "CDELT2"; "CTYPE1"; "CTYPE2"; "EQUINOX"; "RADESYS"].
Definition is_known (k : string) : bool := existsb (String.eqb k) known.
(* the loop over the cards, fits_io.ipp:304-393: values are read again by name *)
Definition read_custom (h : header) (c : card) : list keyword :=
  match c with
  | Key k _ t => if ((k =? "") || is_known k)%bool then [] else
      [Kw k (match find_key h k with Some (HNum x) => HNum (to_double x) | Some v => v | None => HStr "" end) t]
  | _ => []
  end.
Definition not_empty (s : string) : bool := negb (s =? "")%string.
Definition read_comments (h : header) : list string := List.filter not_empty (flat_map (fun c => match c with Comment s => [s] | _ => [] end) h).
Definition read_history (h : header) : list string := List.filter not_empty (flat_map (fun c => match c with History s => [s] | _ => [] end) h).
(* read_fits_metadata, fits_io.ipp:237-397 *)
Definition read_metadata (h : header) : outcome meta :=
  obind (read_float h "EXPTIME") (fun ex =>
  obind (read_double h "DATAMIN") (fun dmin => obind (read_double h "DATAMAX") (fun dmax => obind (read_double h "SATURATE") (fun sat =>
  obind (read_double h "CRPIX1") (fun p1 => obind (read_double h "CRPIX2") (fun p2 => obind (read_double h "CRVAL1") (fun v1 => obind (read_double h "CRVAL2") (fun v2 =>
  obind (read_double h "CDELT1") (fun d1 => obind (read_double h "CDELT2") (fun d2 => obind (read_double h "EQUINOX") (fun eq =>
  let rs := read_string h "RADESYS" in
  Ok (Meta (read_string h "OBJECT") (read_string h "TELESCOP") (read_string h "INSTRUME") (read_string h "OBSERVER") (read_string h "DATE-OBS") (read_string h "ORIGIN")
    ex (read_string h "FILTER") (read_string h "BUNIT") dmin dmax sat p1 p2 v1 v2 d1 d2 (read_string h "CTYPE1") (read_string h "CTYPE2")
    (match eq with Some e => e | None => 2000%R end) (if (rs =? "")%string then "ICRS" else rs)
    (read_comments h) (read_history h) (flat_map (read_custom h) h))))))))))))).
End Reading.
