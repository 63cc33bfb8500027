(* Model of reading an image by its name, include/huira_impl/images/io/read_image.ipp and include/huira/images/io/io_util.hpp, and of make_path, include/huira_impl/util/paths.ipp:63-79, as the image writers and
   fetch-tycho2 use it. A path is the list of its components; a path that ends in a slash has an empty last one, as std::filesystem iterates it. POSIX; symbolic links, permissions and relative roots are left out. *)
From Verif Require Import Common.
From Coq Require Import Ascii.
Local Open Scope string_scope.
Local Open Scope list_scope.

(** names *)
(* std::filesystem::path::extension of a file name: from the last dot on; none for a leading dot, "." and ".." *)
Fixpoint last_dot (s : string) : option (string * string) :=
  match s with
  | EmptyString => None
  | String c r => match last_dot r with Some (a, b) => Some (String c a, b) | None => if Ascii.eqb c "." then Some (EmptyString, s) else None end
  end.
Definition extension (f : string) : string :=
  if String.eqb f "." || String.eqb f ".." then "" else
  match last_dot f with None => "" | Some (EmptyString, _) => "" | Some (_, e) => e end.
Definition path := list string.
Definition filename (p : path) : string := List.last p "".

(** reading *)
Inductive format := BMP | FITS | HDR | JPEG | PNG | TGA | TIFF | UNKNOWN.
(* detect_image_format, read_image.ipp:18-42 *)
Definition detect_format (p : path) : format :=
  let e := extension (filename p) in
  let is s := String.eqb e s in
  if is ".bmp" || is ".BMP" then BMP
  else if is ".fits" || is ".FITS" then FITS
  else if is ".hdr" || is ".HDR" then HDR
  else if is ".jpg" || is ".jpeg" || is ".JPG" || is ".JPEG" then JPEG
  else if is ".png" || is ".PNG" then PNG
  else if is ".tga" || is ".TGA" then TGA
  else if is ".tiff" || is ".TIFF" || is ".tif" || is ".TIF" then TIFF
  else UNKNOWN.
(* what the C library answers: the opened file's bytes as fread will give them (None: fopen failed), the value of ftell after the seek to the end (any long), and whether the buffer could be allocated *)
Record stdio := Stdio { s_bytes : option (list Z); s_tell : Z; s_memory : bool }.
Inductive event := Opened | Closed.
(* read_file_to_buffer, io_util.hpp:26-58: the events and the buffer, None when an exception leaves the function *)
Definition read_file (f : stdio) : list event * option (list Z) :=
  match s_bytes f with
  | None => ([], None)
  | Some bytes =>
      if (s_tell f <=? 0)%Z then ([Opened; Closed], None)
      else if negb (s_memory f) then ([Opened], None)
      else let got := firstn (Z.to_nat (s_tell f)) bytes in
           if negb (Z.of_nat (List.length got) =? s_tell f)%Z then ([Opened; Closed], None) else ([Opened; Closed], Some got)
  end.
Section Read.
(* the decoders of the formats, each with a flag that it ignores if it has no alpha: None when they throw *)
Context {image : Type} (decode : format -> list Z -> bool -> option image).
(* read_image(fmt, data, size, read_alpha), 51-71; read_image_mono 80-100 has the same structure. decode_as: which decoder is called with which flag *)
Definition decode_as (fmt : format) (data : list Z) (alpha : bool) : option image :=
  match fmt with
  | BMP => decode BMP data alpha
  | FITS => None
  | HDR => decode HDR data false
  | JPEG => decode JPEG data false
  | PNG => decode PNG data alpha
  | TGA => decode TGA data alpha
  | TIFF => decode TIFF data alpha
  | UNKNOWN => None
  end.
(* read_image(path, read_alpha), 44-49 *)
Definition read_image (p : path) (f : stdio) (alpha : bool) : list event * option image :=
  let fmt := detect_format p in
  match read_file f with
  | (ev, None) => (ev, None)
  | (ev, Some data) => (ev, decode_as fmt data alpha)
  end.
End Read.

(** make_path *)
Inductive kind := File | Dir.
(* the directory tree: what is at a list of components; the empty list is the place where paths start, always a directory *)
Definition tree := list string -> option kind.
(* the operating system ignores empty components *)
Definition resolve (p : path) : list string := filter (fun c => negb (String.eqb c "")) p.
Definition at_path (t : tree) (q : list string) : option kind := match q with [] => Some Dir | _ => t q end.
Definition list_eqb (a b : list string) : bool := if list_eq_dec string_dec a b then true else false.
Definition mkdir (t : tree) (q : list string) : tree := fun r => if list_eqb q r then Some Dir else t r.
(* std::filesystem::create_directories: every prefix in turn; an exception if one of them is a file *)
Fixpoint create_from (t : tree) (done todo : list string) : tree * bool :=
  match todo with
  | [] => (t, true)
  | c :: r => let q := done ++ [c] in
      match at_path t q with
      | Some File => (t, false)
      | Some Dir => create_from t q r
      | None => create_from (mkdir t q) q r
      end
  end.
Definition create_directories (t : tree) (p : path) : tree * bool := create_from t [] (resolve p).
(* make_path, paths.ipp:63-79; the result false: an exception *)
Definition make_path (t : tree) (p : path) : tree * bool :=
  match p with
  | [] => (t, true)
  | _ => if negb (String.eqb (extension (filename p)) "") then
           match removelast p with [] => (t, true) | parent => create_directories t parent end
         else create_directories t p
  end.
(* fopen(path, "wb"): the directory must be there and the file must not be one *)
Definition can_write (t : tree) (p : path) : bool :=
  if String.eqb (filename p) "" then false else
  match at_path t (resolve (removelast p)), at_path t (resolve p) with Some Dir, Some Dir => false | Some Dir, _ => true | _, _ => false end.
