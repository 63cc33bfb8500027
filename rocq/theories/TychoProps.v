(* Property theorems for the Tycho-2 loaders: C19. *)
From Verif Require Import Common StarCatalogModel TychoModel TychoSpec TychoProofs.

(* C19, true part 1. For every file whose last line is terminated and whose identifier columns parse,
   both loaders return normally (no store outside the array, no undefined cast), with at most one star
   per data line. Missing: unterminated files and unparsable identifiers (refuted below). *)
Theorem tycho_loader_in_bounds_partial : forall (A : arith) (file : list N),
  terminated file -> ids_parse A file ->
  (exists l, read_dat A file = Ok l /\ (List.length l <= List.length (filter valid_line (getlines file)))%nat) /\
  (exists l, read_suppl A file = Ok l /\ (List.length l <= List.length (filter valid_line (getlines file)))%nat).
Proof.
  intros A file Ht Hid. split.
  - apply load_ok; [exact Ht|]. intros line Hin Hv s. eapply dat_line_ok, line_id_own. exact (Hid line Hin Hv).
  - apply load_ok; [exact Ht|]. intros line Hin Hv s. eapply suppl_line_ok, line_id_own. exact (Hid line Hin Hv).
Qed.
Print Assumptions tycho_loader_in_bounds_partial.

(* C19, true part 2. If moreover every data line carries both proper motions, the result is line by line:
   each star is computed from the columns of its own line and rejected lines leave no trace.
   Missing: lines without proper motion (refuted below). *)
Theorem tycho_fields_from_own_line_partial : forall (A : arith) (file : list N),
  terminated file -> ids_parse A file -> pm_present A file ->
  read_dat A file = Ok (own_stars A (own_dat A) file) /\ read_suppl A file = Ok (own_stars A (own_suppl A) file).
Proof.
  intros A file Ht Hid Hpm. split.
  - apply load_own; [exact Ht|]. intros line Hin Hv s. destruct (Hpm line Hin Hv). apply dat_line_own; auto.
    apply line_id_own. exact (Hid line Hin Hv).
  - apply load_own; [exact Ht|]. intros line Hin Hv s. destruct (Hpm line Hin Hv). apply suppl_line_own; auto.
    apply line_id_own. exact (Hid line Hin Hv).
Qed.
Print Assumptions tycho_fields_from_own_line_partial.

(* a concrete arithmetic on integers, for examples: stod parses unsigned decimal digits *)
Definition toy_stod (l : list N) : option Z :=
  match l with
  | [] => None
  | _ => fold_left (fun acc c => match acc with
                                 | Some z => if N.leb 48 c && N.leb c 57 then Some (10 * z + Z.of_N (c - 48))%Z else None
                                 | None => None end) l (Some 0%Z)
  end.
Definition toy : arith :=
  Arith Z toy_stod (fun z => if Z.leb z 2147483647 then Some z else None) (fun z => z) (fun z => (1990 + z)%Z) 2000%Z 1991%Z 0%Z
    (fun ra dec pr pd er ed => ((ra + pr * (2000 - er))%Z, (dec + pd * (2000 - ed))%Z))
    (fun b v => (match b with Some x => x | None => 0%Z end, match v with Some x => x | None => 0%Z end, 0%Z)).

(* a star as plain numbers: id, RA, DEC, pmRA, pmDEC, photometry *)
Definition plain (s : tstar toy) : N * (Z * Z) * (Z * Z) * option (Z * Z * Z) :=
  (t_id s, (t_ra s, t_dec s), (t_pmra s, t_pmdec s), t_phot s).
Definition plains (o : outcome (list (tstar toy))) : option (list (N * (Z * Z) * (Z * Z) * option (Z * Z * Z))) :=
  match o with Ok l => Some (map plain l) | _ => None end.
Definition is_ub (o : outcome (list (tstar toy))) : bool := match o with UB => true | _ => false end.

(* a line of 190 blanks with text placed at given columns *)
Definition put (at_ : nat) (txt : list N) (line : list N) : list N :=
  firstn at_ line ++ txt ++ skipn (at_ + List.length txt) line.
Definition base : list N := put 13 [80]%N (put 11 [49]%N (put 5 [48;48;48;50]%N (put 0 [48;48;48;49]%N (repeat 32%N 190)))).
Definition with_pos (l : list N) := put 15 [53]%N (put 28 [54]%N l).
Definition with_pm (l : list N) := put 41 [55]%N (put 49 [56]%N l).
Definition with_mag (l : list N) := put 110 [51]%N (put 123 [52]%N l).
Definition nl := [10]%N.

Definition good_file : list N := with_mag (with_pm (with_pos base)) ++ nl ++ [32]%N ++ nl ++ with_pm (with_pos base) ++ nl.
Definition good_1 : list N := with_mag (with_pm (with_pos base)).
Definition good_2 : list N := with_pm (with_pos base).
Lemma good_lines : getlines good_file = [good_1; [32]%N; good_2].
Proof. vm_compute. reflexivity. Qed.
Definition cols (l : list N) := map (fun ab => read_entry toy l (fst ab) (snd ab)) [(0, 4); (5, 10); (11, 12); (41, 48); (49, 56)]%nat.
Lemma good_cols1 : cols good_1 = [Some 1%Z; Some 2%Z; Some 1%Z; Some 7%Z; Some 8%Z].
Proof. vm_compute. reflexivity. Qed.
Lemma good_cols2 : cols good_2 = [Some 1%Z; Some 2%Z; Some 1%Z; Some 7%Z; Some 8%Z].
Proof. vm_compute. reflexivity. Qed.
Lemma cols_ids l : cols l = [Some 1%Z; Some 2%Z; Some 1%Z; Some 7%Z; Some 8%Z] ->
  (forall ab, In ab [(0, 4); (5, 10); (11, 12)]%nat ->
    exists v z, read_entry toy l (fst ab) (snd ab) = Some v /\ to_int toy v = Some z) /\
  read_entry toy l 41 48 <> None /\ read_entry toy l 49 56 <> None.
Proof.
  unfold cols. cbn [map fst snd]. generalize (read_entry toy l); intros r E.
  injection E as E1 E2 E3 E4 E5. split; [|split; congruence].
  intros ab [<-|[<-|[<-|[]]]]; [exists 1%Z, 1%Z|exists 2%Z, 2%Z|exists 1%Z, 1%Z]; (split; [assumption|reflexivity]).
Qed.
Lemma blank_line : valid_line [32]%N = false. Proof. reflexivity. Qed.

Example tycho_good_file :
  terminated good_file /\ ids_parse toy good_file /\ pm_present toy good_file /\
  plains (read_dat toy good_file) = Some [(pack 1 2 1, (5, 6)%Z, (7, 8)%Z, Some (3, 4, 0)%Z)].
Proof.
  split; [right; vm_compute; reflexivity|]. split; [|split].
  - unfold ids_parse. rewrite good_lines. intros line [<-|[<-|[<-|[]]]] Hv.
    + apply cols_ids, good_cols1. + rewrite blank_line in Hv; discriminate. + apply cols_ids, good_cols2.
  - unfold pm_present. rewrite good_lines. intros line [<-|[<-|[<-|[]]]] Hv.
    + apply cols_ids, good_cols1. + rewrite blank_line in Hv; discriminate. + apply cols_ids, good_cols2.
  - vm_compute. reflexivity.
Qed.

(* C19, full claim is false in three ways: a data line that is too short gives an undefined cast of NaN to
   int; a last line without newline is stored past the end; and a star without proper motion inherits the
   proper motion of a preceding rejected line. *)
Theorem tycho_loader_refuted :
  is_ub (read_dat toy [49; 10]%N) = true /\
  is_ub (read_dat toy (with_mag (with_pm (with_pos base)))) = true /\
  (let file := with_pm (with_pos base) ++ nl ++ with_mag (with_pos base) ++ nl in
   map plain (own_stars toy (own_dat toy) file) = [(pack 1 2 1, (5, 6)%Z, (0, 0)%Z, Some (3, 4, 0)%Z)] /\
   plains (read_dat toy file) = Some [(pack 1 2 1, (5, 6)%Z, (7, 8)%Z, Some (3, 4, 0)%Z)]).
Proof. vm_compute. auto. Qed.
Print Assumptions tycho_loader_refuted.
