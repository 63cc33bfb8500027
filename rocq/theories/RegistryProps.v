(* Property theorems for the name registry and handles: C05, C06, C07, C61. *)
From Verif Require Import Common RegistryModel RegistrySpec RegistryProofs.

(* C05. After any API history of fewer than 2^31-2 additions the live objects are exactly those
   added and not removed, names are unique, lookup is exact. *)
Theorem registry_names_unique_and_lookup_exact :
  forall cs : list rop,
  api_history [] [] cs -> (N.of_nat (num_adds cs) < 2147483646)%N ->
  exists r, rrun empty_registry cs = Ok r /\
    (forall o, In o (objects r) <-> In o (live_after [] cs)) /\
    (forall a b, In a (objects r) -> In b (objects r) -> name_of r a = name_of r b -> a = b) /\
    (forall o, In o (objects r) -> lookup r (name_of r o) = Ok o) /\
    (forall n, (forall o, In o (objects r) -> name_of r o <> n) -> lookup r n = Throws).
Proof.
  intros cs Hh Hsz. destruct (rrun_reach cs Hh Hsz) as (r & A & B & C & _).
  destruct (rinv_lookup r B) as (L1 & L2 & L3). exists r. repeat (split; auto); apply C.
Qed.
Print Assumptions registry_names_unique_and_lookup_exact.

Example registry_example :
  let cs := [RAdd "Mesh" 0%N "a"; RAdd "Mesh" 1%N "a"; RAdd "Mesh" 2%N "a_1"; RAdd "Mesh" 3%N "";
             RRemove 0%N; RAdd "Mesh" 4%N "a"; RRename 2%N "b"; RRemove 9%N]%string in
  api_history [] [] cs /\
  match rrun empty_registry cs with
  | Ok r => map (name_of r) (objects r) = ["a_1"; "b"; "Mesh.3"; "a"]%string /\ lookup r "a_1_1" = Throws
  | _ => False end.
Proof. split; [cbn; intuition discriminate|vm_compute; auto]. Qed.

(* C06. The name an object gets when added after any history. *)
Theorem registry_first_free_name :
  forall cs ty o n,
  api_history [] [] cs -> (N.of_nat (num_adds cs) < 2147483646)%N -> ~ In o (live_after [] cs) ->
  n <> EmptyString ->
  exists r r', rrun empty_registry cs = Ok r /\ add ty r o n = Ok r' /\
    ((~ name_taken r n /\ name_of r' o = n) \/
     (name_taken r n /\ exists k, (1 <= k)%N /\ name_of r' o = (n ++ "_" ++ dec k)%string /\
        ~ name_taken r (n ++ "_" ++ dec k)%string /\
        forall i, (1 <= i)%N -> (i < k)%N -> name_taken r (n ++ "_" ++ dec i)%string)).
Proof.
  intros cs ty o n Hh Hsz Ho Hne. destruct (rrun_reach cs Hh Hsz) as (r & A & B & C & _).
  pose proof (rinv_size cs r B C) as Hs. unfold int_max in *.
  destruct (add_name_spec ty r o n B) as (r' & E & F); auto.
  - rewrite C. exact Ho.
  - unfold int_max. lia.
  - exists r, r'. auto.
Qed.
Print Assumptions registry_first_free_name.

Example registry_first_free_example :
  match rrun empty_registry [RAdd "M" 0%N "a"; RAdd "M" 1%N "a_1"]%string with
  | Ok r => match add "M" r 2%N "a" with Ok r' => name_of r' 2%N = "a_2"%string | _ => False end
  | _ => False end.
Proof. reflexivity. Qed.

(* C07, full claim is false: renaming an object to its own name renames it, in every reachable
   registry and for every live object. *)
Theorem rename_to_own_name_refuted :
  exists cs o r r',
    api_history [] [] cs /\ rrun empty_registry cs = Ok r /\ In o (objects r) /\
    set_name r o (name_of r o) = Ok r' /\ name_of r' o <> name_of r o.
Proof.
  exists [RAdd "M" 0%N "a"]%string, 0%N. eexists. eexists.
  split; [cbn; tauto|]. split; [reflexivity|]. split; [cbn; auto|]. split; [reflexivity|]. vm_compute. discriminate.
Qed.
Print Assumptions rename_to_own_name_refuted.

Theorem rename_to_own_name_always_changes :
  forall cs o, api_history [] [] cs -> (N.of_nat (num_adds cs) < 2147483646)%N -> In o (live_after [] cs) ->
  exists r r' k, rrun empty_registry cs = Ok r /\ set_name r o (name_of r o) = Ok r' /\ (1 <= k)%N /\
    name_of r' o = (name_of r o ++ "_" ++ dec k)%string /\ lookup r' (name_of r o) = Throws.
Proof.
  intros cs o Hh Hsz Ho. destruct (rrun_reach cs Hh Hsz) as (r & A & B & C & _).
  pose proof (rinv_size cs r B C) as Hs.
  destruct (rename_own r o B) as (r' & k & E & F); [apply C, Ho|unfold int_max; lia|].
  exists r, r', k. tauto.
Qed.
Print Assumptions rename_to_own_name_always_changes.

(* C07, true part: renaming to a name nobody has gives exactly that name, frees the old one and
   touches nobody else. Missing: the object's own name (refuted above). *)
Theorem rename_to_free_name_partial :
  forall cs o n, api_history [] [] cs -> (N.of_nat (num_adds cs) < 2147483646)%N -> In o (live_after [] cs) ->
  exists r, rrun empty_registry cs = Ok r /\
    (~ name_taken r n ->
     exists r', set_name r o n = Ok r' /\ name_of r' o = n /\ lookup r' n = Ok o /\
       lookup r' (name_of r o) = Throws /\
       forall x, In x (objects r) -> x <> o -> name_of r' x = name_of r x /\ lookup r' (name_of r x) = Ok x).
Proof.
  intros cs o n Hh Hsz Ho. destruct (rrun_reach cs Hh Hsz) as (r & A & B & C & _).
  pose proof (rinv_size cs r B C) as Hs. exists r. split; [exact A|].
  intros Hf. apply rename_free; auto; [apply C, Ho|unfold int_max; lia].
Qed.
Print Assumptions rename_to_free_name_partial.

(* C61. Handles: for objects that were added, access succeeds exactly while the object is alive and
   has not been removed, and valid() says so. *)
Theorem handle_access_exact :
  forall cs alive o, api_history [] [] cs -> (N.of_nat (num_adds cs) < 2147483646)%N -> In o (added cs) ->
  exists r, rrun empty_registry cs = Ok r /\
    (handle_valid r alive o = true <-> alive o = true /\ In o (live_after [] cs)) /\
    (alive o = true -> In o (live_after [] cs) -> handle_get r alive o = Ok o) /\
    (alive o = false \/ ~ In o (live_after [] cs) -> handle_get r alive o = Throws).
Proof.
  intros cs alive o Hh Hsz Ho. destruct (rrun_reach cs Hh Hsz) as (r & A & B & C & D & E).
  exists r. split; [exact A|]. unfold handle_valid, handle_get.
  destruct (in_dec N.eq_dec o (live_after [] cs)) as [Hin|Hout].
  - rewrite (D o Hin). destruct (alive o); intuition discriminate.
  - rewrite (E o Ho Hout). destruct (alive o); intuition discriminate.
Qed.
Print Assumptions handle_access_exact.

Example handle_example :
  let cs := [RAdd "M" 0%N "a"; RAdd "M" 1%N "b"; RRemove 0%N]%string in
  api_history [] [] cs /\ In 0%N (added cs) /\ ~ In 0%N (live_after [] cs) /\ In 1%N (live_after [] cs).
Proof. cbn. intuition discriminate. Qed.
