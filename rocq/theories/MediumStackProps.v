(* Property theorems for the medium stack: C12, C13. *)
From Verif Require Import Common MediumStackModel MediumStackSpec MediumStackProofs.

(* C12. No sequence of crossings overflows the stack or accesses it out of range. *)
Theorem medium_stack_never_overflows :
  forall (medium : prim -> option med) (w : list (option prim)),
  exists s, toggles medium empty_stack w = Ok s /\ List.length (entries s) = 8 /\ (size s <= 8)%nat.
Proof. intros medium w. exact (toggles_wf medium w empty_stack wf_empty). Qed.
Print Assumptions medium_stack_never_overflows.

(* C12. A well nested walk of any depth (also beyond the capacity), from any reachable stack whose
   volumes are among those the ray is inside, ends with the stack it began with. *)
Theorem medium_stack_nested_restores :
  forall (medium : prim -> option med) (pre w : list (option prim)) (s : mstack) (O : list prim),
  toggles medium empty_stack pre = Ok s ->
  (forall p, In p (prims_on s) -> In p O) -> nested medium O w ->
  exists s', toggles medium s w = Ok s' /\ contents s' = contents s /\ size s' = size s /\ top s' = top s.
Proof.
  intros medium pre w s O Hpre HO Hn.
  destruct (toggles_wf medium pre empty_stack wf_empty) as (s0 & E & Hw). rewrite Hpre in E. inversion E; subst s0.
  destruct (nested_restores medium O w Hn s Hw HO) as (s' & A & B & C & D).
  exists s'. split; [exact A|]. split; [exact C|]. split; [exact D|].
  destruct (contents s) as [|e0 l] eqn:Ec using rev_ind.
  - assert (Z : size s = 0%nat).
    { pose proof (f_equal (@List.length _) Ec) as L. unfold contents in L. rewrite firstn_length in L. destruct Hw. simpl in L. lia. }
    unfold top. rewrite D, Z. reflexivity.
  - clear IHl. rewrite (top_contents s' l e0 B C), (top_contents s l e0 Hw Ec). reflexivity.
Qed.
Print Assumptions medium_stack_nested_restores.

(* C12. The active medium is that of the innermost volume entered, for nesting up to the capacity. *)
Theorem medium_stack_top_is_innermost :
  forall (medium : prim -> option med) (w : list (option prim)) (path : list prim),
  inside medium w path -> (List.length path <= 8)%nat ->
  exists s, toggles medium empty_stack w = Ok s /\
    top s = Ok (match path with [] => None | p :: _ => medium p end).
Proof.
  intros medium w path Hi Hlen.
  destruct (inside_contents medium w path Hi Hlen) as (s & E & Hw & Hc & Hz).
  exists s. split; [exact E|]. destruct path as [|p path].
  - unfold top. rewrite Hz. reflexivity.
  - cbn [rev] in Hc. rewrite map_app in Hc. rewrite (top_contents s _ _ Hw Hc). reflexivity.
Qed.
Print Assumptions medium_stack_top_is_innermost.

(* non-vacuity: planet(1) with atmosphere(2) inside, a cloud(3) visited twice, a plain surface(9) *)
Definition demo_medium (p : prim) : option med := if N.eqb p 9 then None else Some (100 + p)%N.
Example nested_example :
  nested demo_medium [] [Some 1; Some 2; Some 3; Some 9; Some 3; Some 3; Some 3; Some 2; Some 1]%N /\
  inside demo_medium [Some 1; Some 2; Some 3; Some 3]%N [2; 1]%N.
Proof.
  assert (D : forall p, p <> 9%N -> demo_medium p <> None).
  { intros p H. unfold demo_medium. destruct (N.eqb_spec p 9); congruence. }
  split.
  - apply (nested_volume demo_medium [] 1%N [Some 2; Some 3; Some 9; Some 3; Some 3; Some 3; Some 2]%N []);
      [apply D; lia|simpl; tauto| |constructor].
    apply (nested_volume demo_medium [1%N] 2%N [Some 3; Some 9; Some 3; Some 3; Some 3]%N []);
      [apply D; lia|simpl; lia| |constructor].
    apply (nested_volume demo_medium [2%N; 1%N] 3%N [Some 9]%N [Some 3; Some 3]%N);
      [apply D; lia|simpl; lia|apply nested_surface; [reflexivity|constructor]|].
    apply (nested_volume demo_medium [2%N; 1%N] 3%N [] []);
      [apply D; lia|simpl; lia|constructor|constructor].
  - apply (inside_enter demo_medium [Some 1%N] [1%N] 2%N [Some 3; Some 3]%N).
    + apply (inside_enter demo_medium [] [] 1%N []); [apply inside_none; constructor|apply D; lia|simpl; tauto|constructor].
    + apply D; lia.
    + simpl; lia.
    + apply (nested_volume demo_medium [2%N; 1%N] 3%N [] []);
      [apply D; lia|simpl; lia|constructor|constructor].
Qed.

(* C13, full claim is false: two overlapping volumes. The ray crosses 1, 2, 1, 2, so it is outside
   both, but both are still on the stack, and medium 102 is still active. *)
Theorem medium_stack_overlap_refuted :
  exists (medium : prim -> option med) (w : list (option prim)) (s : mstack),
    toggles medium empty_stack w = Ok s /\
    (forall p, Nat.even (crossings p w) = true) /\
    size s = 4%nat /\ In 1%N (prims_on s) /\ top s = Ok (Some 102%N).
Proof.
  exists demo_medium, [Some 1; Some 2; Some 1; Some 2]%N.
  eexists. split; [vm_compute; reflexivity|]. split; [|vm_compute; auto].
  intros p. unfold crossings. cbn. destruct (N.eqb p 1); destruct (N.eqb p 2); reflexivity.
Qed.
Print Assumptions medium_stack_overlap_refuted.

(* C13, true part: when the crossings are well nested, a volume that has been left is not on the stack
   (the stack holds exactly the volumes the ray is inside). Missing: overlapping volumes. *)
Theorem medium_stack_left_is_removed_partial :
  forall (medium : prim -> option med) (w : list (option prim)) (path : list prim),
  inside medium w path -> (List.length path <= 8)%nat ->
  exists s, toggles medium empty_stack w = Ok s /\ prims_on s = rev path.
Proof.
  intros medium w path Hi Hlen.
  destruct (inside_contents medium w path Hi Hlen) as (s & E & Hw & Hc & Hz).
  exists s. split; [exact E|]. unfold prims_on. rewrite Hc, flat_map_concat_map, map_map. cbn.
  generalize (rev path). intros l. induction l as [|x l IHl]; cbn; [reflexivity|]. rewrite IHl. reflexivity.
Qed.
Print Assumptions medium_stack_left_is_removed_partial.
