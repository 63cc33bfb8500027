(* Property theorems for the star catalogue file and identifiers: C15, C16, C17, C18. *)
From Coq Require Import Permutation Sorted.
From Verif Require Import Common Bytes StarCatalogModel StarCatalogSpec StarCatalogProofs.

Definition star_a : star := Star 7 1 2 3 4 5 6 1065353216.          (* magnitude 1.0 *)
Definition star_b : star := Star 8 9 10 11 12 13 14 3212836864.     (* magnitude -1.0 *)
Definition star_n : star := Star 9 0 0 0 0 0 0 2143289344.          (* magnitude NaN *)

(* C15. For every list of stars, whatever order of equal magnitudes std::sort chose and whatever the
   padding bytes hold: reading the written file without a cutoff returns the catalogue type and a
   permutation of exactly the stars with a comparable magnitude, brightest first, all fields equal. *)
Theorem catalog_round_trip : forall (pad1 pad2 : list N) (ctype : N) (l sorted : list star),
  List.length pad1 = 3%nat -> List.length pad2 = 7%nat -> Forall star_ok l ->
  (N.of_nat (List.length l) < 2 ^ 57)%N ->
  sorts_to (filter (fun s => negb (f32_nan (s_mag s))) l) sorted ->
  read_file (write_file pad1 pad2 ctype sorted) f32_inf = Ok (ctype, sorted) /\
  Permutation (filter (fun s => negb (f32_nan (s_mag s))) l) sorted /\
  StronglySorted (fun a b => f32_le (s_mag a) (s_mag b) = true) sorted.
Proof.
  intros pad1 pad2 ctype l sorted H1 H2 Hok Hlen Hs.
  rewrite (roundtrip pad1 pad2 ctype l sorted f32_inf H1 H2 Hok Hlen Hs).
  destruct Hs as [Hp Hsort].
  assert (Hn : Forall (fun s => f32_nan (s_mag s) = false) sorted)
    by (eapply Permutation_Forall'; [exact Hp|apply writable_nan]).
  assert (Hok' : Forall star_ok sorted).
  { eapply Permutation_Forall'; [exact Hp|]. apply Forall_forall. intros s Hin.
    apply filter_In in Hin. rewrite Forall_forall in Hok. apply Hok. tauto. }
  split; [|split; [exact Hp|]].
  - rewrite filter_all; [reflexivity|]. apply Forall_forall. intros s Hin.
    rewrite Forall_forall in Hn, Hok'. apply f32_le_inf; [apply (Hok' s Hin)|auto].
  - clear -Hsort Hn. induction Hsort as [|s l Hs IH Hall]; constructor.
    + inversion Hn; subst. auto.
    + inversion Hn as [|? ? N1 N2]; subst. rewrite Forall_forall in *. intros x Hx. specialize (Hall x Hx). specialize (N2 x Hx).
      cbv beta in *. unfold f32_lt, f32_le in *. rewrite N1, N2 in *. cbn [negb andb] in *. lia.
Qed.
Print Assumptions catalog_round_trip.

Example catalog_round_trip_example :
  sorts_to (filter (fun s => negb (f32_nan (s_mag s))) [star_a; star_n; star_b]) [star_b; star_a] /\
  Forall star_ok [star_a; star_n; star_b] /\
  read_file (write_file [1;2;3]%N [1;2;3;4;5;6;7]%N 1 [star_b; star_a]) f32_inf = Ok (1%N, [star_b; star_a]).
Proof.
  split; [|split].
  - split; [vm_compute; apply perm_swap|]. repeat constructor.
  - repeat constructor.
  - vm_compute. reflexivity.
Qed.

(* C16. Under the same conditions, for every cutoff (any bit pattern, NaN included): reading with the
   cutoff equals reading everything and keeping the stars not fainter than the cutoff, in order. *)
Theorem catalog_cutoff_is_filter : forall (pad1 pad2 : list N) (ctype : N) (l sorted : list star) (max : N),
  List.length pad1 = 3%nat -> List.length pad2 = 7%nat -> Forall star_ok l ->
  (N.of_nat (List.length l) < 2 ^ 57)%N ->
  sorts_to (filter (fun s => negb (f32_nan (s_mag s))) l) sorted ->
  read_file (write_file pad1 pad2 ctype sorted) max = Ok (ctype, filter (fun s => f32_le (s_mag s) max) sorted).
Proof. exact roundtrip. Qed.
Print Assumptions catalog_cutoff_is_filter.

(* the in-memory clip agrees with the cutoff on reading *)
Theorem clip_is_filter : forall (l : list star) (max : N), f32_nan max = false ->
  clip l max = filter (fun s => f32_le (s_mag s) max) l.
Proof.
  intros l max Hm. unfold clip. apply filter_ext. intros s. unfold f32_lt, f32_le. rewrite Hm.
  destruct (f32_nan (s_mag s)); cbn [negb andb orb]; [rewrite ?orb_true_r; reflexivity|]. rewrite ?orb_false_r. lia.
Qed.
Print Assumptions clip_is_filter.

Example catalog_cutoff_example :
  read_file (write_file [1;2;3]%N [1;2;3;4;5;6;7]%N 1 [star_b; star_a]) 0 = Ok (1%N, [star_b]) /\
  clip [star_a; star_n; star_b] 0 = [star_b].
Proof. vm_compute. auto. Qed.

(* C17, true part: a wrong magic or version is rejected, for every file, also one too short to hold them.
   Missing: rejection of truncated files (refuted below). *)
Theorem catalog_rejects_foreign_partial : forall (file : list N) (max : N),
  (firstn 4 file <> [72; 82; 83; 67]%N \/ nth 4 file 0%N <> 1%N) -> read_file file max = Throws.
Proof. exact reject. Qed.
Print Assumptions catalog_rejects_foreign_partial.

Example catalog_rejects_example : read_file [72; 82; 83; 68; 1]%N f32_inf = Throws /\ read_file [] 0 = Throws.
Proof. vm_compute. auto. Qed.

(* C17, full claim is false: a file that promises three stars and holds two is accepted and yields three
   value-initialised stars; five bytes are accepted as an empty catalogue. *)
Theorem catalog_truncated_accepted_refuted :
  exists (file1 file2 : list N),
    (* header promises 3 stars *) field file1 24 8 = 3%N /\ List.length file1 = (32 + 2 * 48)%nat /\
    (exists l, read_file file1 f32_inf = Ok (1%N, l) /\ List.length l = 3%nat /\ Forall (fun s => s = default_star) l) /\
    List.length file2 = 5%nat /\ read_file file2 f32_inf = Ok (0%N, []).
Proof.
  exists (encode_header [0;0;0]%N [0;0;0;0;0;0;0]%N 1 3 ++ encode_star star_b ++ encode_star star_a), [72; 82; 83; 67; 1]%N.
  split; [vm_compute; reflexivity|]. split; [vm_compute; reflexivity|]. split.
  - exists [default_star; default_star; default_star]. split; [vm_compute; reflexivity|]. split; [reflexivity|]. repeat constructor.
  - split; vm_compute; reflexivity.
Qed.
Print Assumptions catalog_truncated_accepted_refuted.

(* C18. Every valid triple survives packing and unpacking, hence packing is injective on valid triples. *)
Theorem tycho_id_round_trip : forall t1 t2 t3 : N, (t1 < 2 ^ 14)%N -> (t2 < 2 ^ 16)%N -> (t3 < 2 ^ 4)%N ->
  unpack (pack t1 t2 t3) = (t1, t2, t3).
Proof. exact unpack_pack_valid. Qed.
Print Assumptions tycho_id_round_trip.

Theorem tycho_id_injective : forall t1 t2 t3 u1 u2 u3 : N,
  (t1 < 2 ^ 14)%N -> (t2 < 2 ^ 16)%N -> (t3 < 2 ^ 4)%N -> (u1 < 2 ^ 14)%N -> (u2 < 2 ^ 16)%N -> (u3 < 2 ^ 4)%N ->
  pack t1 t2 t3 = pack u1 u2 u3 -> (t1, t2, t3) = (u1, u2, u3).
Proof.
  intros. rewrite <- (unpack_pack_valid t1 t2 t3), <- (unpack_pack_valid u1 u2 u3) by assumption. congruence.
Qed.
Print Assumptions tycho_id_injective.

(* what happens for every argument of the C++ parameter types: the third component leaks into the second *)
Theorem tycho_id_general : forall t1 t2 t3 : N, (t1 < 2 ^ 16)%N -> (t2 < 2 ^ 16)%N -> (t3 < 2 ^ 8)%N ->
  unpack (pack t1 t2 t3) = ((t1 mod 2 ^ 14)%N, N.lor t2 (t3 / 16), (t3 mod 16)%N).
Proof. exact unpack_pack. Qed.
Print Assumptions tycho_id_general.

Example tycho_id_example : unpack (pack 9537 12121 3) = (9537, 12121, 3)%N /\ pack 1 0 16 = pack 1 1 0.
Proof. vm_compute. auto. Qed.
