(* Model of the Tycho-2 text loaders, include/huira_impl/stars/io/load_tycho2.ipp and star_data.ipp.
   Text is a list of byte values. Double values are an abstract type V (None stands for NaN, also for the
   text std::stod rejects); the arithmetic of positions and magnitudes is abstract: every function of it
   is a parameter, so the theorems hold whatever it computes. *)
From Verif Require Import Common StarCatalogModel.

(* the parameters: parsing and arithmetic on doubles *)
Record arith := Arith {
  V : Type;
  stod : list N -> option V;             (* std::stod of a non-empty trimmed field; None = throws or NaN *)
  to_int : V -> option Z;                (* static_cast<int>; None = out of range, undefined behaviour *)
  rad : V -> V;                          (* x * PI / 180 *)
  epoch1990 : V -> V;                    (* 1990.f + (float)x *)
  epoch2000 : V;                         (* 2000.0 *)
  epoch1991 : V;                         (* 1991.25 *)
  zero : V;                              (* 0.0 *)
  advance : V -> V -> V -> V -> V -> V -> V * V;  (* normalize_epoch, star_data.ipp:50-68: RA DEC pmRA pmDEC epochRA epochDEC *)
  photometry : option V -> option V -> V * V * V  (* process_magnitude, star_data.ipp:10-48: solid angle, temperature, magnitude *)
}.

Section Loader.
Variable A : arith.

(* StarData with abstract values (star_data.hpp:13-29); None in the photometric fields stands for NaN.
   RA and DEC of a value-initialised vector element are zero. *)
Record tstar := TStar { t_id : N; t_ra : V A; t_dec : V A; t_pmra : V A; t_pmdec : V A; t_phot : option (V A * V A * V A) }.
Definition t_default : tstar := TStar 0 (zero A) (zero A) (zero A) (zero A) None.

(* std::count of '\n', load_tycho2.ipp:15-24 *)
Definition count_lines (file : list N) : nat := List.length (filter (N.eqb 10) file).

(* the lines std::getline delivers: the text between newlines; text after the last newline only if non-empty *)
Fixpoint split_lines (file cur : list N) : list (list N) :=
  match file with
  | [] => match cur with [] => [] | _ => [rev cur] end
  | c :: r => if N.eqb c 10 then rev cur :: split_lines r [] else split_lines r (c :: cur)
  end.
Definition getlines (file : list N) : list (list N) := split_lines file [].

(* blank and tab *)
Definition blank (c : N) : bool := N.eqb c 32 || N.eqb c 9.
Fixpoint drop_blank (l : list N) : list N :=
  match l with [] => [] | c :: r => if blank c then drop_blank r else l end.

(* read_entry_, load_tycho2.ipp:34-52; None = quiet NaN *)
Definition read_entry (line : list N) (a b : nat) : option (V A) :=
  if Nat.leb (List.length line) a then None
  else let e := Nat.min b (List.length line) in
       match rev (drop_blank (rev (drop_blank (firstn (e - a) (skipn a line))))) with
       | [] => None
       | f => stod A f
       end.

(* has_mean_position_, load_tycho2.ipp:26-32: 'X' = 88 *)
Definition has_mean (line : list N) : bool :=
  if Nat.ltb (List.length line) 14 then false else negb (N.eqb (nth 13 line 0%N) 88).

(* is_valid_line_, load_tycho2.ipp:54-58: first character is a digit *)
Definition valid_line (line : list N) : bool :=
  match line with [] => false | c :: _ => N.leb 48 c && N.leb c 57 end.

(* static_cast<int> of a field; NaN or out of range is undefined behaviour *)
Definition int_entry (line : list N) (a b : nat) : outcome Z :=
  match read_entry line a b with
  | None => UB
  | Some v => match to_int A v with Some z => Ok z | None => UB end
  end.

(* the identifier, load_tycho2.ipp:70-76: uint16, uint16, uint8 conversions wrap *)
Definition line_id (line : list N) : outcome N :=
  obind (int_entry line 0 4) (fun a =>
  obind (int_entry line 5 10) (fun b =>
  obind (int_entry line 11 12) (fun c =>
  Ok (pack (Z.to_N (a mod 65536)) (Z.to_N (b mod 65536)) (Z.to_N (c mod 256)))))).

(* assignment of a proper motion only when it is not NaN, load_tycho2.ipp:112-117 *)
Definition or_old (x : option (V A)) (old : V A) : V A := match x with Some v => v | None => old end.

(* load_tycho2.ipp:109-129: proper motion, epoch and photometry; true when the star is accepted (i++) *)
Definition finish (line : list N) (magB magV : nat * nat) (s : tstar) (eRA eDEC : V A) : tstar * bool :=
  let pr := or_old (read_entry line 41 48) (t_pmra s) in
  let pd := or_old (read_entry line 49 56) (t_pmdec s) in
  let (ra, dec) := advance A (t_ra s) (t_dec s) pr pd eRA eDEC in
  let s1 := TStar (t_id s) ra dec pr pd (t_phot s) in
  match read_entry line (fst magB) (snd magB), read_entry line (fst magV) (snd magV) with
  | None, None => (s1, false)
  | bt, vt => (TStar (t_id s) ra dec pr pd (Some (photometry A bt vt)), true)
  end.

(* one loop iteration of read_tycho2_dat on slot content s, load_tycho2.ipp:69-131;
   the boolean tells whether i is incremented *)
Definition dat_line (line : list N) (s : tstar) : outcome (tstar * bool) :=
  obind (line_id line) (fun id =>
  let s0 := TStar id (t_ra s) (t_dec s) (t_pmra s) (t_pmdec s) (t_phot s) in
  if has_mean line then
    match read_entry line 15 27, read_entry line 28 40 with
    | Some ra, Some dec =>
        Ok (finish line (110, 116)%nat (123, 129)%nat
              (TStar id (rad A ra) (rad A dec) (t_pmra s) (t_pmdec s) (t_phot s)) (epoch2000 A) (epoch2000 A))
    | _, _ => Ok (s0, false)
    end
  else
    match read_entry line 153 165, read_entry line 166 178 with
    | Some ra, Some dec =>
        let s1 := TStar id (rad A ra) (rad A dec) (t_pmra s) (t_pmdec s) (t_phot s) in
        match read_entry line 179 183, read_entry line 184 188 with
        | Some er, Some ed => Ok (finish line (110, 116)%nat (123, 129)%nat s1 (epoch1990 A er) (epoch1990 A ed))
        | _, _ => Ok (s1, false)
        end
    | _, _ => Ok (s0, false)
    end).

(* one loop iteration of read_tycho2_suppl, load_tycho2.ipp:151-187 *)
Definition suppl_line (line : list N) (s : tstar) : outcome (tstar * bool) :=
  obind (line_id line) (fun id =>
  match read_entry line 15 27, read_entry line 28 40 with
  | Some ra, Some dec =>
      Ok (finish line (83, 89)%nat (96, 102)%nat
            (TStar id (rad A ra) (rad A dec) (t_pmra s) (t_pmdec s) (t_phot s)) (epoch1991 A) (epoch1991 A))
  | _, _ => Ok (TStar id (t_ra s) (t_dec s) (t_pmra s) (t_pmdec s) (t_phot s), false)
  end).

Section Loop.
(* the iteration: dat_line or suppl_line *)
Variable step : list N -> tstar -> outcome (tstar * bool).

(* the loop over the lines, load_tycho2.ipp:66-133 and 148-188; star_data[i] outside the vector is undefined behaviour *)
Fixpoint line_loop (ls : list (list N)) (data : list tstar) (i : nat) : outcome (list tstar * nat) :=
  match ls with
  | [] => Ok (data, i)
  | line :: r =>
      if valid_line line then
        match nth_error data i with
        | None => UB
        | Some s => obind (step line s) (fun p => line_loop r (upd data i (fst p)) (if snd p then S i else i))
        end
      else line_loop r data i
  end.

(* count, loop, resize: load_tycho2.ipp:60-137 and 139-193 (the file opens) *)
Definition load (file : list N) : outcome (list tstar) :=
  obind (line_loop (getlines file) (repeat t_default (count_lines file)) 0) (fun r => Ok (firstn (snd r) (fst r))).
End Loop.

(* read_tycho2_dat, load_tycho2.ipp:60-137 *)
Definition read_dat (file : list N) : outcome (list tstar) := load dat_line file.
(* read_tycho2_suppl, load_tycho2.ipp:139-193 *)
Definition read_suppl (file : list N) : outcome (list tstar) := load suppl_line file.
End Loader.
Arguments TStar {A}.
Arguments t_id {A}. Arguments t_ra {A}. Arguments t_dec {A}. Arguments t_pmra {A}. Arguments t_pmdec {A}. Arguments t_phot {A}.
