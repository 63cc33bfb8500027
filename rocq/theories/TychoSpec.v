(* Specification vocabulary for the Tycho-2 loaders. *)
From Verif Require Import Common StarCatalogModel TychoModel.

(* every line is terminated: the file is empty or ends in a newline *)
Definition terminated (file : list N) : Prop := file = [] \/ last file 0%N = 10%N.

(* all three identifier columns of every data line parse to a value that fits an int *)
Definition ids_parse (A : arith) (file : list N) : Prop :=
  forall line, In line (getlines file) -> valid_line line = true ->
    forall ab, In ab [(0, 4); (5, 10); (11, 12)]%nat ->
    exists v z, read_entry A line (fst ab) (snd ab) = Some v /\ to_int A v = Some z.

(* both proper motion columns of every data line are present *)
Definition pm_present (A : arith) (file : list N) : Prop :=
  forall line, In line (getlines file) -> valid_line line = true ->
    read_entry A line 41 48 <> None /\ read_entry A line 49 56 <> None.

(* the identifier of a line from its own columns *)
Definition own_id (A : arith) (line : list N) : N :=
  let num a b := match read_entry A line a b with Some v => match to_int A v with Some z => z | None => 0%Z end | None => 0%Z end in
  pack (Z.to_N (num 0%nat 4%nat mod 65536)) (Z.to_N (num 5%nat 10%nat mod 65536)) (Z.to_N (num 11%nat 12%nat mod 256)).

(* the star that a line describes, from the columns of that line alone: position columns p (and epochs),
   proper motion columns 41-48 and 49-56 (absent = 0), magnitude columns b and v *)
Definition own_star (A : arith) (line : list N) (ra dec : option (V A)) (er ed : option (V A))
    (bt vt : option (V A)) : option (tstar A) :=
  match ra, dec, er, ed with
  | Some ra, Some dec, Some er, Some ed =>
      let pr := match read_entry A line 41 48 with Some x => x | None => zero A end in
      let pd := match read_entry A line 49 56 with Some x => x | None => zero A end in
      match bt, vt with
      | None, None => None
      | _, _ => let pos := advance A (rad A ra) (rad A dec) pr pd er ed in
                Some (TStar (own_id A line) (fst pos) (snd pos) pr pd (Some (photometry A bt vt)))
      end
  | _, _, _, _ => None
  end.

(* main catalogue: mean position at J2000 unless column 13 is X, then the observed position and its epochs *)
Definition own_dat (A : arith) (line : list N) : option (tstar A) :=
  let mags f := f (read_entry A line 110 116) (read_entry A line 123 129) in
  if (Nat.leb 14 (List.length line) && negb (N.eqb (nth 13 line 0%N) 88))%bool
  then mags (own_star A line (read_entry A line 15 27) (read_entry A line 28 40) (Some (epoch2000 A)) (Some (epoch2000 A)))
  else mags (own_star A line (read_entry A line 153 165) (read_entry A line 166 178)
              (option_map (epoch1990 A) (read_entry A line 179 183)) (option_map (epoch1990 A) (read_entry A line 184 188))).

(* supplement: position at 1991.25 *)
Definition own_suppl (A : arith) (line : list N) : option (tstar A) :=
  own_star A line (read_entry A line 15 27) (read_entry A line 28 40) (Some (epoch1991 A)) (Some (epoch1991 A))
    (read_entry A line 83 89) (read_entry A line 96 102).

(* the stars of a file, line by line *)
Definition own_stars (A : arith) (own : list N -> option (tstar A)) (file : list N) : list (tstar A) :=
  flat_map (fun line => match own line with Some s => [s] | None => [] end) (filter valid_line (getlines file)).
