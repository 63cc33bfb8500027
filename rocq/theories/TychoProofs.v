From Verif Require Import Common StarCatalogModel TychoModel TychoSpec.

Lemma split_lines_count : forall file cur, (file = [] -> cur = []) -> (file <> [] -> last file 0%N = 10%N) ->
  List.length (split_lines file cur) = count_lines file.
Proof.
  unfold count_lines. induction file as [|c r IH]; intros cur H1 H2.
  - rewrite (H1 eq_refl). reflexivity.
  - cbn [split_lines filter]. rewrite (N.eqb_sym 10 c). destruct (N.eqb_spec c 10) as [->|Hc].
    + cbn [List.length]. rewrite IH; [reflexivity|reflexivity|].
      intros Hr. specialize (H2 ltac:(discriminate)). destruct r; [congruence|exact H2].
    + destruct r as [|d r].
      * exfalso. specialize (H2 ltac:(discriminate)). cbn in H2. congruence.
      * apply IH; [discriminate|]. intros _. apply (H2 ltac:(discriminate)).
Qed.

Lemma getlines_count file : terminated file -> List.length (getlines file) = count_lines file.
Proof.
  intros H. apply split_lines_count; [reflexivity|]. intros Hn. destruct H; [contradiction|assumption].
Qed.

Section Loop.
Variable A : arith.
Variable step : list N -> tstar A -> outcome (tstar A * bool).

(* no undefined behaviour when there is a slot per line *)
Lemma loop_ok : forall ls data i,
  (forall line, In line ls -> valid_line line = true -> forall s, exists s' b, step line s = Ok (s', b)) ->
  (i + List.length ls <= List.length data)%nat ->
  exists data' i', line_loop A step ls data i = Ok (data', i') /\ List.length data' = List.length data /\ (i' <= i + List.length ls)%nat.
Proof.
  induction ls as [|line r IH]; intros data i Hs Hlen; cbn [line_loop].
  - exists data, i. cbn; repeat split; lia.
  - cbn [List.length] in Hlen. destruct (valid_line line) eqn:Ev.
    + destruct (nth_error data i) as [s|] eqn:En; [|apply nth_error_None in En; lia].
      destruct (Hs line (or_introl eq_refl) Ev s) as (s' & b & E). rewrite E. cbn [obind fst snd].
      destruct (IH (upd data i s') (if b then S i else i)) as (d' & i' & E' & L & Hi).
      * intros l Hl. apply Hs. right; exact Hl.
      * rewrite upd_length. destruct b; lia.
      * exists d', i'. rewrite upd_length in L. split; [exact E'|]. split; [exact L|]. cbn [List.length]. destruct b; lia.
    + destruct (IH data i) as (d' & i' & E' & L & Hi); [intros l Hl; apply Hs; right; exact Hl|lia|].
      exists d', i'. split; [exact E'|]. split; [exact L|]. cbn [List.length]. lia.
Qed.

(* when acceptance and the accepted star do not depend on the slot content, the result is line by line *)
Variable own : list N -> option (tstar A).
Lemma loop_own : forall ls data i,
  (forall line, In line ls -> valid_line line = true -> forall s,
     match own line with
     | Some s' => step line s = Ok (s', true)
     | None => exists s', step line s = Ok (s', false)
     end) ->
  (i + List.length ls <= List.length data)%nat ->
  exists data' i', line_loop A step ls data i = Ok (data', i') /\ List.length data' = List.length data /\
    firstn i' data' = firstn i data ++
      flat_map (fun line => match own line with Some s => [s] | None => [] end) (filter valid_line ls).
Proof.
  induction ls as [|line r IH]; intros data i Hs Hlen; cbn [line_loop].
  - exists data, i. cbn [filter flat_map]. rewrite app_nil_r. auto.
  - cbn [List.length] in Hlen. destruct (valid_line line) eqn:Ev.
    + destruct (nth_error data i) as [s|] eqn:En; [|apply nth_error_None in En; lia].
      pose proof (Hs line (or_introl eq_refl) Ev s) as Hl.
      cbn [filter]. rewrite Ev. cbn [flat_map].
      destruct (own line) as [s'|].
      * rewrite Hl. cbn [obind fst snd].
        destruct (IH (upd data i s') (S i)) as (d' & i' & E' & L & Hf).
        { intros l Hl'. apply Hs. right; exact Hl'. } { rewrite upd_length; lia. }
        exists d', i'. rewrite upd_length in L. split; [exact E'|]. split; [exact L|]. rewrite Hf.
        rewrite app_assoc. f_equal.
        apply (list_eq_nth (t_default A)).
        { rewrite app_length, !firstn_length, upd_length. cbn [List.length]. lia. }
        intros k Hk. rewrite firstn_length, upd_length in Hk.
        rewrite <- (firstn_skipn (S i) (upd data i s')) in *.
        assert (X : nth k (firstn (S i) (upd data i s')) (t_default A) = nth k (upd data i s') (t_default A)).
        { rewrite <- (firstn_skipn (S i) (upd data i s')) at 2. rewrite app_nth1; [reflexivity|]. rewrite firstn_length, upd_length; lia. }
        rewrite (firstn_skipn (S i)) in *. rewrite X.
        destruct (Nat.eq_dec k i) as [->|Hki].
        { rewrite nth_upd_eq by lia. rewrite app_nth2 by (rewrite firstn_length; lia).
          rewrite firstn_length. replace (i - Nat.min i (List.length data))%nat with 0%nat by lia. reflexivity. }
        { rewrite nth_upd_neq by lia. rewrite app_nth1 by (rewrite firstn_length; lia).
          rewrite <- (firstn_skipn i data) at 1. rewrite app_nth1 by (rewrite firstn_length; lia). reflexivity. }
      * destruct Hl as (s' & El). rewrite El. cbn [obind fst snd].
        destruct (IH (upd data i s') i) as (d' & i' & E' & L & Hf).
        { intros l Hl'. apply Hs. right; exact Hl'. } { rewrite upd_length; lia. }
        exists d', i'. rewrite upd_length in L. split; [exact E'|]. split; [exact L|]. rewrite Hf. cbn [app]. f_equal.
        apply (list_eq_nth (t_default A)).
        { rewrite !firstn_length, upd_length. lia. }
        intros k Hk. rewrite firstn_length, upd_length in Hk.
        assert (X : forall d, (k < i)%nat -> (i <= List.length d)%nat -> nth k (firstn i d) (t_default A) = nth k d (t_default A)).
        { intros d H1 H2. rewrite <- (firstn_skipn i d) at 2. rewrite app_nth1; [reflexivity|]. rewrite firstn_length; lia. }
        rewrite !X by (rewrite ?upd_length; lia). apply nth_upd_neq. lia.
    + cbn [filter]. rewrite Ev. apply IH; [intros l Hl; apply Hs; right; exact Hl|lia].
Qed.
End Loop.

Lemma line_id_own A line :
  (forall ab, In ab [(0, 4); (5, 10); (11, 12)]%nat ->
    exists v z, read_entry A line (fst ab) (snd ab) = Some v /\ to_int A v = Some z) ->
  line_id A line = Ok (own_id A line).
Proof.
  intros H. unfold line_id, own_id, int_entry.
  destruct (H (0, 4)%nat ltac:(cbn; auto)) as (v1 & z1 & E1 & F1).
  destruct (H (5, 10)%nat ltac:(cbn; auto)) as (v2 & z2 & E2 & F2).
  destruct (H (11, 12)%nat ltac:(cbn; auto)) as (v3 & z3 & E3 & F3).
  cbn [fst snd] in *. rewrite E1, E2, E3, F1, F2, F3. reflexivity.
Qed.

Lemma dat_line_ok A line id s : line_id A line = Ok id -> exists s' b, dat_line A line s = Ok (s', b).
Proof.
  intros E. unfold dat_line. rewrite E. cbn [obind].
  repeat match goal with |- context [if ?c then _ else _] => destruct c | |- context [match read_entry ?a ?b ?c ?d with _ => _ end] => destruct (read_entry a b c d) end;
  try (eexists _, _; reflexivity); (eexists _, _; rewrite <- surjective_pairing; reflexivity).
Qed.
Lemma suppl_line_ok A line id s : line_id A line = Ok id -> exists s' b, suppl_line A line s = Ok (s', b).
Proof.
  intros E. unfold suppl_line. rewrite E. cbn [obind].
  repeat match goal with |- context [match read_entry ?a ?b ?c ?d with _ => _ end] => destruct (read_entry a b c d) end;
  try (eexists _, _; reflexivity); (eexists _, _; rewrite <- surjective_pairing; reflexivity).
Qed.

Lemma finish_own A line mb mv id ra dec pr pd ph er ed :
  read_entry A line 41 48 <> None -> read_entry A line 49 56 <> None -> own_id A line = id ->
  match own_star A line (Some ra) (Some dec) (Some er) (Some ed)
          (read_entry A line (fst mb) (snd mb)) (read_entry A line (fst mv) (snd mv)) with
  | Some s' => finish A line mb mv (TStar id (rad A ra) (rad A dec) pr pd ph) er ed = (s', true)
  | None => exists s', finish A line mb mv (TStar id (rad A ra) (rad A dec) pr pd ph) er ed = (s', false)
  end.
Proof.
  intros H1 H2 Hid. unfold own_star, finish, or_old. cbn [t_ra t_dec t_pmra t_pmdec t_phot t_id].
  destruct (read_entry A line 41 48) as [p|]; [|congruence].
  destruct (read_entry A line 49 56) as [q|]; [|congruence].
  destruct (advance A (rad A ra) (rad A dec) p q er ed) as [x y]. cbn [fst snd].
  destruct (read_entry A line (fst mb) (snd mb)), (read_entry A line (fst mv) (snd mv)); rewrite ?Hid; try reflexivity. eexists; reflexivity.
Qed.

Lemma dat_line_own A line s :
  line_id A line = Ok (own_id A line) -> read_entry A line 41 48 <> None -> read_entry A line 49 56 <> None ->
  match own_dat A line with
  | Some s' => dat_line A line s = Ok (s', true)
  | None => exists s', dat_line A line s = Ok (s', false)
  end.
Proof.
  intros Hid H1 H2. unfold own_dat, dat_line, has_mean. rewrite Hid. cbn [obind].
  replace (Nat.leb 14 (List.length line)) with (negb (Nat.ltb (List.length line) 14)) by (destruct (Nat.ltb_spec (List.length line) 14), (Nat.leb_spec 14 (List.length line)); (reflexivity || lia)).
  destruct (Nat.ltb (List.length line) 14); cbn [negb andb].
  2: destruct (negb (N.eqb (nth 13 line 0%N) 88)).
  2: { destruct (read_entry A line 15 27) as [ra|]; [|cbn [own_star]; eexists; reflexivity].
       destruct (read_entry A line 28 40) as [dec|]; [|cbn [own_star]; eexists; reflexivity].
       pose proof (finish_own A line (110, 116)%nat (123, 129)%nat _ ra dec (t_pmra s) (t_pmdec s) (t_phot s) (epoch2000 A) (epoch2000 A) H1 H2 eq_refl) as F.
       cbn [fst snd] in F. destruct (own_star _ _ _ _ _ _ _ _); [rewrite F; reflexivity|].
       destruct F as [s' F]. rewrite F. eexists; reflexivity. }
  all: destruct (read_entry A line 153 165) as [ra|]; [|cbn [own_star]; eexists; reflexivity].
  all: destruct (read_entry A line 166 178) as [dec|]; [|cbn [own_star]; eexists; reflexivity].
  all: destruct (read_entry A line 179 183) as [er|]; [|cbn [own_star option_map]; eexists; reflexivity].
  all: destruct (read_entry A line 184 188) as [ed|]; [|cbn [own_star option_map]; eexists; reflexivity].
  all: pose proof (finish_own A line (110, 116)%nat (123, 129)%nat _ ra dec (t_pmra s) (t_pmdec s) (t_phot s) (epoch1990 A er) (epoch1990 A ed) H1 H2 eq_refl) as F.
  all: cbn [fst snd option_map] in *; destruct (own_star _ _ _ _ _ _ _ _); [rewrite F; reflexivity|].
  all: destruct F as [s' F]; rewrite F; eexists; reflexivity.
Qed.

Lemma suppl_line_own A line s :
  line_id A line = Ok (own_id A line) -> read_entry A line 41 48 <> None -> read_entry A line 49 56 <> None ->
  match own_suppl A line with
  | Some s' => suppl_line A line s = Ok (s', true)
  | None => exists s', suppl_line A line s = Ok (s', false)
  end.
Proof.
  intros Hid H1 H2. unfold own_suppl, suppl_line. rewrite Hid. cbn [obind].
  destruct (read_entry A line 15 27) as [ra|]; [|cbn [own_star]; eexists; reflexivity].
  destruct (read_entry A line 28 40) as [dec|]; [|cbn [own_star]; eexists; reflexivity].
  pose proof (finish_own A line (83, 89)%nat (96, 102)%nat _ ra dec (t_pmra s) (t_pmdec s) (t_phot s) (epoch1991 A) (epoch1991 A) H1 H2 eq_refl) as F.
  cbn [fst snd] in F. destruct (own_star _ _ _ _ _ _ _ _); [rewrite F; reflexivity|].
  destruct F as [s' F]. rewrite F. eexists; reflexivity.
Qed.

Lemma load_ok A step file : terminated file ->
  (forall line, In line (getlines file) -> valid_line line = true -> forall s, exists s' b, step line s = Ok (s', b)) ->
  exists l, load A step file = Ok l /\ (List.length l <= List.length (filter valid_line (getlines file)))%nat.
Proof.
  intros Ht Hs. unfold load.
  destruct (loop_ok A step (getlines file) (repeat (t_default A) (count_lines file)) 0 Hs) as (d & i & E & L & Hi).
  { rewrite repeat_length, getlines_count by exact Ht. lia. }
  rewrite E. cbn [obind fst snd]. eexists. split; [reflexivity|].
  rewrite firstn_length.
  enough (i <= List.length (filter valid_line (getlines file)))%nat by lia.
  clear - E. 
  assert (G : forall ls d0 j d i, line_loop A step ls d0 j = Ok (d, i) -> (i <= j + List.length (filter valid_line ls))%nat).
  { induction ls as [|line r IH]; intros d0 j d1 i1 E'; cbn [line_loop filter] in *.
    - injection E' as <- <-. cbn. lia.
    - destruct (valid_line line).
      + destruct (nth_error d0 j); [|discriminate]. destruct (step line t) as [[s' b]| |]; cbn [obind fst snd] in E'; try discriminate.
        apply IH in E'. cbn [List.length]. destruct b; lia.
      + apply IH in E'. lia. }
  apply G in E. lia.
Qed.

Lemma load_own A step own file : terminated file ->
  (forall line, In line (getlines file) -> valid_line line = true -> forall s,
     match own line with
     | Some s' => step line s = Ok (s', true)
     | None => exists s', step line s = Ok (s', false)
     end) ->
  load A step file = Ok (own_stars A own file).
Proof.
  intros Ht Hs. unfold load.
  destruct (loop_own A step own (getlines file) (repeat (t_default A) (count_lines file)) 0 Hs) as (d & i & E & L & Hf).
  { rewrite repeat_length, getlines_count by exact Ht. lia. }
  rewrite E. cbn [obind fst snd]. rewrite Hf. reflexivity.
Qed.
