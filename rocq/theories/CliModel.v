(* Model of the command line tool: apps/huira_cli/cli.cpp, commands/fetch_tycho2.cpp, commands/process_tycho2.cpp and the file part of
   StarCatalog::write_star_data (include/huira_impl/stars/io/star_catalog.ipp:23-59). The output directory is a map from file names to contents; a run is the list of
   its states, in each of which the machine may stop. The network, the disk and the readers of the star files are parameters. Messages are left out. *)
From Verif Require Import Common.
Local Open Scope string_scope.
Local Open Scope list_scope.

Definition disk := string -> option (list Z).
Definition put (d : disk) (n : string) (c : option (list Z)) : disk := fun m => if String.eqb n m then c else d m.

(** fetch-tycho2 *)
(* One call of download_file as libcurl and the stream answer: could handle and file be opened; the bytes given to write_callback until the transfer ended;
   curl_easy_perform returned CURLE_OK (a write that reports failure makes it return an error); how many bytes the file holds at successive moments, and
   after close *)
Record transfer := Transfer { t_open : bool; t_sent : list Z; t_ok : bool; t_moments : list nat; t_kept : nat }.
(* download_file, fetch_tycho2.cpp:36-104: the states passed through, the last state, the result *)
Definition download (d : disk) (n : string) (t : transfer) : list disk * disk * bool :=
  if negb (t_open t) then ([], d, false) else
  let written := put d n (Some (firstn (t_kept t) (t_sent t))) in
  let states := put d n (Some []) :: map (fun k => put d n (Some (firstn k (t_sent t)))) (t_moments t) ++ [written] in
  if t_ok t then (states, written, true) else (states ++ [put written n None], put written n None, false).
(* the two loops of fetch_tycho2, 133-179: one list of names; the number of failures *)
Fixpoint fetch_files (force : bool) (net : string -> transfer) (names : list string) (d : disk) : list disk * disk * nat :=
  match names with
  | [] => ([], d, O)
  | n :: r =>
      let '(s1, d1, f1) :=
        match d n, force with
        | Some _, false => ([], d, O)
        | _, _ => let '(s, d1, ok) := download d n (net n) in (s, d1, if ok then O else 1%nat)
        end in
      let '(s2, d2, f2) := fetch_files force net r d1 in
      (s1 ++ s2, d2, (f1 + f2)%nat)
  end.

(** process-tycho2 *)
(* how a program ends: an exit status, or an exception nobody catches (main.cpp has no handler) *)
Inductive exit := Code (n : nat) | Uncaught.
Section Process.
Context {star : Type}.
(* read_tycho2_dat and read_tycho2_suppl: None when they throw *)
Variable parse : string -> list Z -> option (list star).
(* the bytes of a catalogue *)
Variable encode : list star -> list Z.
(* tycho2.hpp:13-19; the catalogue's name, process_tycho2.cpp:34 *)
Definition two_digits : list string := ["00"; "01"; "02"; "03"; "04"; "05"; "06"; "07"; "08"; "09"; "10"; "11"; "12"; "13"; "14"; "15"; "16"; "17"; "18"; "19"].
Definition star_files : list string := map (fun s => String.append "tyc2.dat." s) two_digits ++ ["suppl_1.dat"; "suppl_2.dat"].
Definition catalogue_file : string := "tycho2.hrsc".
(* the loops that read, process_tycho2.cpp:44-79: Some (inl stars), Some (inr tt): a file is missing, None: an exception *)
Fixpoint read_files (names : list string) (d : disk) (acc : list star) : option (list star + unit) :=
  match names with
  | [] => Some (inl acc)
  | n :: r => match d n with None => Some (inr tt) | Some c => match parse n c with None => None | Some l => read_files r d (acc ++ l) end end
  end.
(* write_star_data as the disk answers: could the file be opened; how many bytes it holds at successive moments and in the end. The stream is never asked *)
Record writing := Writing { w_open : bool; w_moments : list nat; w_kept : nat }.
(* the removals of clean, 101-110 *)
Fixpoint remove_all (names : list string) (d : disk) : list disk * disk :=
  match names with [] => ([], d) | n :: r => let d1 := put d n None in let '(s, d2) := remove_all r d1 in (d1 :: s, d2) end.
(* process_tycho2, 20-113; input and output directory the same, as fetch calls it, and existing *)
Definition process (w : writing) (clean : bool) (d : disk) : list disk * disk * exit :=
  match read_files star_files d [] with
  | None => ([], d, Uncaught)
  | Some (inr _) => ([], d, Code 1)
  | Some (inl stars) =>
      if negb (w_open w) then ([], d, Uncaught) else
      let bytes := encode stars in
      let written := put d catalogue_file (Some (firstn (w_kept w) bytes)) in
      let states := put d catalogue_file (Some []) :: map (fun k => put d catalogue_file (Some (firstn k bytes))) (w_moments w) ++ [written] in
      if clean then let '(s, d2) := remove_all star_files written in (states ++ s, d2, Code 0) else (states, written, Code 0)
  end.
(* fetch_tycho2, fetch_tycho2.cpp:106-208 *)
Definition fetch (net : string -> transfer) (w : writing) (force process_too clean : bool) (d : disk) : list disk * disk * exit :=
  let '(s1, d1, failures) := fetch_files force net star_files d in
  match failures with
  | S _ => (s1, d1, Code 1)
  | O => if process_too then let '(s2, d2, e) := process w clean d1 in (s1 ++ s2, d2, e) else (s1, d1, Code 0)
  end.
End Process.

(** the dispatcher *)
(* what a call of dispatch does: prints the help, the version, complains about an unknown command, or runs a command with a context and its arguments *)
Inductive action := Help (status : nat) | Version | Unknown (name : string) | Run (command : string) (verbose : bool) (argv : list string) | Beyond.
(* Registry::add, cli.cpp:13-16: emplace does not overwrite. A command is its name and its function *)
Definition add {F} (name : string) (f : F) (r : string -> option F) : string -> option F := fun n => if String.eqb name n then match r name with Some g => Some g | None => Some f end else r n.
(* the loop over the global flags, 28-45: args = argv from position i on; the number of flags seen is sub_start - 1 *)
Fixpoint scan (args : list string) (verbose : bool) (sub_start : nat) : action + (bool * nat) :=
  match args with
  | [] => inr (verbose, sub_start)
  | a :: r =>
      if String.eqb a "-v" || String.eqb a "--verbose" then scan r true (S sub_start)
      else if String.eqb a "--version" then inl Version
      else if String.eqb a "-h" || String.eqb a "--help" then inl (Help 0)
      else inr (verbose, sub_start)
  end.
(* dispatch, 18-64: argv with the program's name first. Beyond: argv read outside its bounds *)
Definition dispatch {F} (commands : string -> option F) (argv : list string) : action :=
  if (List.length argv <? 2)%nat then Help 1 else
  match scan (tl argv) false 1 with
  | inl a => a
  | inr (verbose, sub_start) =>
      if (List.length argv <=? sub_start)%nat then Help 1 else
      match nth_error argv sub_start with
      | None => Beyond
      | Some name => match commands name with None => Unknown name | Some _ => Run name verbose (skipn sub_start argv) end
      end
  end.
