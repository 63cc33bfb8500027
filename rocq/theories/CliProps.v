(* C128, C129: the command line tool. *)
From Verif Require Import Common CliModel.
Local Open Scope string_scope.
Local Open Scope list_scope.

(** specification *)
Section Spec.
Context {star : Type} (parse : string -> list Z -> option (list star)) (encode : list star -> list Z) (remote : string -> list Z).
(* every star file is on the disk as the server has it *)
Definition sources_whole (d : disk) : Prop := forall n, In n star_files -> d n = Some (remote n).
(* the server's files can be read, and the stars of all of them, in order *)
Definition all_stars (stars : list star) : Prop := exists parts, Forall2 (fun n l => parse n (remote n) = Some l) star_files parts /\ stars = List.concat parts.
Definition catalogue_whole (stars : list star) (d : disk) : Prop := d catalogue_file = Some (encode stars).
(* libcurl reports success only for the whole file *)
Definition faithful (net : string -> transfer) : Prop := forall n, In n star_files -> t_ok (net n) = true -> t_sent (net n) = remote n.
(* a disk that takes all bytes *)
Definition roomy (net : string -> transfer) : Prop := forall n, In n star_files -> t_kept (net n) = List.length (t_sent (net n)).
Definition works (net : string -> transfer) : Prop := forall n, In n star_files -> t_open (net n) = true /\ t_ok (net n) = true.

Lemma put_same d n c : put d n c n = c. Proof. unfold put. rewrite String.eqb_refl. reflexivity. Qed.
Lemma put_other d n c m : n <> m -> put d n c m = d m. Proof. intros H. unfold put. destruct (String.eqb_spec n m); congruence. Qed.
Lemma files_distinct : NoDup star_files.
Proof. unfold star_files, two_digits. cbn. repeat (constructor; [intros H; cbn in H; repeat destruct H as [H|H]; try discriminate; auto|]). constructor. Qed.
Lemma catalogue_not_source n : In n star_files -> catalogue_file <> n.
Proof. intros H E. subst n. unfold star_files, two_digits, catalogue_file in H. cbn in H. repeat destruct H as [H|H]; try discriminate; auto. Qed.

(* reading *)
Lemma read_files_ok names d acc parts : Forall2 (fun n l => exists c, d n = Some c /\ parse n c = Some l) names parts -> read_files parse names d acc = Some (inl (acc ++ List.concat parts)).
Proof.
  intros H. revert acc. induction H as [|n l ns ls (c & D & P) _ IH]; intros acc; cbn; [rewrite app_nil_r; auto|]. rewrite D, P, IH, app_assoc. reflexivity.
Qed.
Lemma read_files_inv names d acc stars : read_files parse names d acc = Some (inl stars) -> exists parts, Forall2 (fun n l => exists c, d n = Some c /\ parse n c = Some l) names parts /\ stars = acc ++ List.concat parts.
Proof.
  revert acc. induction names as [|n r IH]; intros acc H; cbn in H.
  - inversion H; subst. exists []. split; [constructor|cbn; rewrite app_nil_r; auto].
  - destruct (d n) as [c|] eqn:D; [|discriminate]. destruct (parse n c) as [l|] eqn:P; [|discriminate]. destruct (IH _ H) as (parts & F & ->). exists (l :: parts). split; [constructor; eauto|cbn; rewrite app_assoc; auto].
Qed.
Lemma read_files_whole names d acc stars stars' parts : (forall n, In n names -> d n = Some (remote n)) -> read_files parse names d acc = Some (inl stars) -> Forall2 (fun n l => parse n (remote n) = Some l) names parts -> stars' = acc ++ List.concat parts -> stars = stars'.
Proof.
  intros W H F ->. assert (F' : Forall2 (fun n l => exists c, d n = Some c /\ parse n c = Some l) names parts).
  { revert W. clear H. induction F as [|n l ns ls P _ IH]; intros W; constructor; [exists (remote n); split; auto; apply W; left; auto|apply IH; intros; apply W; right; auto]. }
  rewrite (read_files_ok _ _ _ _ F') in H. congruence.
Qed.
Lemma removed names d : forall s d2, remove_all names d = (s, d2) -> (forall x, In x s \/ x = d2 -> forall n, ~ In n names -> x n = d n) /\ (forall n, In n names -> d2 n = None).
Proof.
  revert d. induction names as [|n r IH]; intros d s d2 H; cbn in H.
  - inversion H; subst. split; [intros x [ [] | -> ]; auto|intros n [] ].
  - destruct (remove_all r (put d n None)) as (s', d') eqn:E. inversion H; subst. destruct (IH _ _ _ E) as (A & B). split.
    + intros x X m M. assert (N : n <> m) by (intros ->; apply M; left; auto). assert (R : ~ In m r) by (intros C; apply M; right; auto). assert (X' : x = put d n None \/ (In x s' \/ x = d2)) by (destruct X as [ [<-|X] | ->]; auto). destruct X' as [->|X']; [apply put_other; auto|]. rewrite (A x X' m R). apply put_other; auto.
    + intros m [<-|M]; [|auto]. destruct (in_dec string_dec n r) as [I|I]; [auto|]. rewrite (A d2 (or_intror eq_refl) n I). apply put_same.
Qed.

(* the fetch loop *)
Lemma download_spec d n t s d1 ok : download d n t = (s, d1, ok) -> (forall x, In x s \/ x = d1 -> forall m, m <> n -> x m = d m) /\ (ok = true -> t_open t = true /\ t_ok t = true /\ d1 n = Some (firstn (t_kept t) (t_sent t))) /\ (t_open t = true -> t_ok t = true -> ok = true) /\ (t_open t = true -> ok = false -> d1 n = None) /\ In d1 (d :: s).
Proof.
  unfold download. destruct (t_open t); cbn [negb].
  2:{ intros H. inversion H; subst. repeat split; try discriminate; auto. intros x [ [] | -> ]; auto. cbn; auto. }
  destruct (t_ok t); intros H; inversion H; subst; clear H; repeat split; try discriminate; auto using put_same.
  - intros x X m M. assert (M' : n <> m) by congruence. destruct X as [ [<-|X] | ->]; [apply put_other; auto| |apply put_other; auto]. apply in_app_or in X. destruct X as [X|[<-|[] ]]; [|apply put_other; auto]. apply in_map_iff in X. destruct X as (k & <- & _). apply put_other; auto.
  - right. right. apply in_or_app. right. left. auto.
  - intros x X m M. assert (M' : n <> m) by congruence. destruct X as [X| -> ]; [|rewrite !put_other; auto]. destruct X as [<-|X]; [apply put_other; auto|]. apply in_app_or in X. destruct X as [X|[<-|[] ] ]; [|rewrite !put_other; auto]. apply in_app_or in X. destruct X as [X|[<-|[] ] ]; [|apply put_other; auto]. apply in_map_iff in X. destruct X as (k & <- & _). apply put_other; auto.
  - right. right. apply in_or_app. right. left. auto.
Qed.
Lemma fetch_frame force net names d s d2 f : fetch_files force net names d = (s, d2, f) -> forall x, In x s \/ x = d2 -> forall m, ~ In m names -> x m = d m.
Proof.
  revert d s d2 f. induction names as [|n r IH]; intros d s d2 f H x X m M; cbn in H.
  - inversion H; subst. destruct X as [ [] | -> ]; auto.
  - destruct (match d n with Some _ => _ | None => _ end) as ((s1, d1), f1) eqn:E1. destruct (fetch_files force net r d1) as ((s2, d2'), f2) eqn:E2. inversion H; subst; clear H. assert (N : m <> n) by (intros ->; apply M; left; auto). assert (R : ~ In m r) by (intros C; apply M; right; auto).
    assert (D1 : (forall y, In y s1 \/ y = d1 -> y m = d m)). { destruct (d n), force; try (inversion E1; subst; intros y [ [] | -> ]; auto; fail); destruct (download d n (net n)) as ((s', d'), ok) eqn:DE; inversion E1; subst; intros y Y; apply (proj1 (download_spec _ _ _ _ _ _ DE)); auto. }
    assert (X' : In x s1 \/ (In x s2 \/ x = d2)) by (destruct X as [X|X]; [apply in_app_or in X; destruct X; auto|auto]). destruct X' as [X'|X']; [auto|]. rewrite (IH _ _ _ _ E2 x X' m R). apply D1; auto.
Qed.
Lemma fetch_result force net names d s d2 f : NoDup names -> fetch_files force net names d = (s, d2, f) ->
  (f = 0%nat -> forall n, In n names -> (force = false /\ d n <> None /\ d2 n = d n) \/ ((force = true \/ d n = None) /\ t_open (net n) = true /\ t_ok (net n) = true /\ d2 n = Some (firstn (t_kept (net n)) (t_sent (net n))))) /\
  ((forall n, In n names -> (force = false /\ d n <> None) \/ (t_open (net n) = true /\ t_ok (net n) = true)) -> f = 0%nat).
Proof.
  intros ND. revert d s d2 f ND. induction names as [|n r IH]; intros d s d2 f ND H; cbn in H.
  - inversion H; subst. split; [intros _ n []|auto].
  - destruct (match d n with Some _ => _ | None => _ end) as ((s1, d1), f1) eqn:E1. destruct (fetch_files force net r d1) as ((s2, d2'), f2) eqn:E2. inversion H; subst; clear H. inversion ND as [|? ? NI ND']; subst. destruct (IH _ _ _ _ ND' E2) as (A & B).
    assert (FR : forall m, m <> n -> d1 m = d m). { intros m M. destruct (d n), force; try (inversion E1; subst; auto; fail); destruct (download d n (net n)) as ((s', d'), ok) eqn:DE; inversion E1; subst; apply (proj1 (download_spec _ _ _ _ _ _ DE)); auto. }
    assert (KEEP : d2 n = d1 n) by (apply (fetch_frame _ _ _ _ _ _ _ E2 d2); auto). split.
    + intros F m M. assert (f1 = 0 /\ f2 = 0)%nat as (-> & ->) by lia. destruct (string_dec m n) as [->|NE].
      * rewrite KEEP. destruct (d n) as [c|] eqn:DN, force; try (inversion E1; subst; left; rewrite DN; repeat split; auto; discriminate);
          (destruct (download d n (net n)) as ((s', d'), ok) eqn:DE; destruct ok; inversion E1; subst; destruct (proj1 (proj2 (download_spec _ _ _ _ _ _ DE)) eq_refl) as (O1 & O2 & O3); right; repeat split; auto).
      * destruct M as [<-|M]; [congruence|]. specialize (A eq_refl m M). rewrite (FR m NE) in A. exact A.
    + intros OK. assert (Z1 : f1 = 0%nat). { destruct (OK n (or_introl eq_refl)) as [(F & NN)|(O1 & O2)].
        - subst force. destruct (d n); [inversion E1; auto|congruence].
        - destruct (d n), force; try (inversion E1; auto; fail); destruct (download d n (net n)) as ((s', d'), ok) eqn:DE; inversion E1; subst; rewrite (proj1 (proj2 (proj2 (download_spec _ _ _ _ _ _ DE))) O1 O2); auto. }
      subst f1. rewrite B; auto. intros m M. rewrite (FR m); [apply OK; right; auto|intros ->; auto].
Qed.

(** C128 *)
Lemma process_spec w clean d s d2 e : process parse encode w clean d = (s, d2, e) ->
  match e with
  | Code 0 => exists stars, read_files parse star_files d [] = Some (inl stars) /\ w_open w = true /\
      d2 catalogue_file = Some (firstn (w_kept w) (encode stars)) /\
      (forall x, In x s \/ x = d2 -> (forall n, n <> catalogue_file -> x n = d n) \/ (clean = true /\ x catalogue_file = Some (firstn (w_kept w) (encode stars)) /\ forall n, n <> catalogue_file -> ~ In n star_files -> x n = d n)) /\
      (clean = true -> forall n, In n star_files -> d2 n = None) /\ (clean = false -> forall n, n <> catalogue_file -> d2 n = d n)
  | _ => s = [] /\ d2 = d
  end.
Proof.
  unfold process. destruct (read_files parse star_files d []) as [[stars|]|] eqn:R; [|intros H; inversion H; subst; auto|intros H; inversion H; subst; auto]. destruct (w_open w) eqn:O; cbn [negb]; [|intros H; inversion H; subst; auto].
  set (written := put d catalogue_file (Some (firstn (w_kept w) (encode stars)))).
  set (states := put d catalogue_file (Some []) :: map (fun k => put d catalogue_file (Some (firstn k (encode stars)))) (w_moments w) ++ [written]).
  assert (ST : forall x, In x states -> forall n, n <> catalogue_file -> x n = d n).
  { intros x X n N. assert (N' : catalogue_file <> n) by congruence. destruct X as [<-|X]; [apply put_other; auto|]. apply in_app_or in X. destruct X as [X|[<-|[] ] ]; [|apply put_other; auto]. apply in_map_iff in X. destruct X as (k & <- & _). apply put_other; auto. }
  assert (WC : written catalogue_file = Some (firstn (w_kept w) (encode stars))) by apply put_same.
  assert (NC : ~ In catalogue_file star_files) by (intros C; apply (catalogue_not_source _ C); reflexivity).
  destruct clean.
  - destruct (remove_all star_files written) as (sr, dr) eqn:RM. destruct (removed _ _ _ _ RM) as (A & B). intros H. inversion H; subst. exists stars. repeat split; auto.
    + rewrite (A d2 (or_intror eq_refl) _ NC). exact WC.
    + intros x X. assert (X' : In x states \/ (In x sr \/ x = d2)) by (destruct X as [X|X]; [apply (in_app_or states sr x) in X; destruct X; auto|auto]). destruct X' as [X'|X']; [left; intros; apply ST; auto|]. right. split; auto. split; [rewrite (A x X' _ NC); exact WC|]. intros n N NI. rewrite (A x X' n NI). apply put_other. congruence.
    + discriminate.
  - intros H. inversion H; subst. exists stars. repeat split; auto; [|discriminate|intros _ n N; apply put_other; congruence]. intros x [X| -> ]; left; [intros; apply ST; auto|]. intros n N. apply put_other. congruence.
Qed.
Lemma kept_all {A} (l : list A) k : k = List.length l -> firstn k l = l.
Proof. intros ->. apply firstn_all. Qed.

(* when the disk takes every byte and libcurl tells the truth, exit status 0 means: all files are there and, with --process, the catalogue holds all stars *)
Theorem C128_exit_zero_partial : forall net w force process_too clean d states d2 stars,
  all_stars stars -> faithful net -> roomy net -> w_kept w = List.length (encode stars) ->
  (force = false -> forall n, In n star_files -> d n = None \/ d n = Some (remote n)) ->
  fetch parse encode net w force process_too clean d = (states, d2, Code 0) ->
  (process_too = true -> catalogue_whole stars d2) /\ (process_too = false \/ clean = false -> sources_whole d2) /\
  (process_too = true -> clean = true -> forall n, In n star_files -> d2 n = None).
Proof.
  intros net w force pt clean d states d2 stars (parts & F2 & ->) FA RO WK OLD H. unfold fetch in H. destruct (fetch_files force net star_files d) as ((s1, d1), f) eqn:E. destruct f as [|f]; [|discriminate].
  destruct (fetch_result _ _ _ _ _ _ _ files_distinct E) as (A & _). assert (W1 : sources_whole d1).
  { intros n N. destruct (A eq_refl n N) as [(FF & NN & ->)|(_ & TO & TK & ->)]; [destruct (OLD FF n N) as [|]; [contradiction|auto]|]. rewrite (RO n N), firstn_all, (FA n N TK). reflexivity. }
  destruct pt; [|inversion H; subst; repeat split; auto; try discriminate].
  destruct (process parse encode w clean d1) as ((s2, dd), e) eqn:P. inversion H; subst. pose proof (process_spec _ _ _ _ _ _ P) as (stars & R & _ & C & _ & CL & KP). assert (stars = List.concat parts) as -> by (eapply read_files_whole; eauto). rewrite <- (app_nil_l (List.concat parts)) in *.
  repeat split.
  - intros _. unfold catalogue_whole. rewrite C, kept_all; auto.
  - intros [|]; [discriminate|]. intros n N. rewrite KP; auto. intros ->. apply (catalogue_not_source _ N). reflexivity.
  - intros _ CT n N. apply CL; auto.
Qed.
(* whenever the machine stops, the stars are not lost: every file is still there or the catalogue is complete *)
Theorem C128_never_lost_partial : forall w clean d states d2 e stars, all_stars stars -> w_kept w = List.length (encode stars) -> sources_whole d ->
  process parse encode w clean d = (states, d2, e) -> forall x, In x states \/ x = d2 -> sources_whole x \/ catalogue_whole stars x.
Proof.
  intros w clean d states d2 e stars (parts & F2 & ->) WK W H x X. pose proof (process_spec _ _ _ _ _ _ H) as P. destruct e as [[|k]|].
  2-3: destruct P as (-> & ->); destruct X as [[]| -> ]; left; exact W.
  destruct P as (stars & R & _ & _ & ST & _ & _). assert (stars = List.concat parts) as -> by (eapply read_files_whole; eauto). destruct (ST x X) as [K|(_ & C & _)].
  - left. intros n N. rewrite K; [auto|]. intros ->. apply (catalogue_not_source _ N). reflexivity.
  - right. unfold catalogue_whole. rewrite C, kept_all; auto.
Qed.
(* whatever state an earlier run left behind, a run with --force over a working network and disk makes it good *)
Theorem C128_force_recovers : forall net w clean d stars, all_stars stars -> faithful net -> roomy net -> works net -> w_open w = true -> w_kept w = List.length (encode stars) ->
  exists states d2, fetch parse encode net w true true clean d = (states, d2, Code 0) /\ catalogue_whole stars d2.
Proof.
  intros net w clean d stars ST FA RO WO WOP WK. unfold fetch. destruct (fetch_files true net star_files d) as ((s1, d1), f) eqn:E. destruct (fetch_result _ _ _ _ _ _ _ files_distinct E) as (A & B).
  assert (f = 0%nat) as -> by (apply B; intros n N; right; apply WO; auto). assert (W1 : sources_whole d1).
  { intros n N. destruct (A eq_refl n N) as [(FF & _)|(_ & TO & TK & ->)]; [discriminate|]. rewrite (RO n N), firstn_all, (FA n N TK). reflexivity. }
  destruct (process parse encode w clean d1) as ((s2, d2), e) eqn:P. exists (s1 ++ s2), d2. pose proof (process_spec _ _ _ _ _ _ P) as Q. destruct ST as (parts & F2 & ->).
  assert (R : read_files parse star_files d1 [] = Some (inl (List.concat parts))).
  { rewrite (read_files_ok star_files d1 [] parts); auto. clear - F2 W1. unfold sources_whole in W1. induction F2 as [|n l ns ls P _ IH]; constructor; [exists (remote n); split; auto; apply W1; left; auto|apply IH; intros; apply W1; right; auto]. }
  assert (e = Code 0) as -> by (unfold process in P; rewrite R, WOP in P; cbn [negb] in P; destruct clean; [destruct (remove_all star_files _)|]; inversion P; auto).
  split; auto. destruct Q as (st & R' & _ & C & _). assert (st = List.concat parts) as -> by congruence. unfold catalogue_whole. rewrite C, kept_all; auto.
Qed.
(* a missing file: exit status 1 and nothing on the disk is touched; the stars are read, but nothing is written *)
Theorem C128_missing_file : forall w clean d n, In n star_files -> d n = None -> (forall m c, parse m c <> None) -> process parse encode w clean d = ([], d, Code 1).
Proof.
  intros w clean d n N D P. unfold process. assert (R : forall names acc, In n names -> read_files parse names d acc = Some (inr tt)).
  { induction names as [|m r IH]; intros acc I; [destruct I|]. cbn. destruct (d m) as [c|] eqn:DM; [|reflexivity]. destruct (parse m c) as [l|] eqn:PM; [|exfalso; apply (P m c); auto]. apply IH. destruct I as [->|I]; [congruence|auto]. }
  rewrite (R star_files [] N). reflexivity.
Qed.
(* REFUTED without room on the disk: the catalogue is cut off, every source file is removed and the exit status is 0 *)
Theorem C128_full_disk_refuted : forall w d stars, all_stars stars -> sources_whole d -> w_open w = true -> (w_kept w < List.length (encode stars))%nat ->
  exists states d2, process parse encode w true d = (states, d2, Code 0) /\ ~ catalogue_whole stars d2 /\ forall n, In n star_files -> d2 n = None.
Proof.
  intros w d stars (parts & F2 & ->) W WO LT. destruct (process parse encode w true d) as ((s, d2), e) eqn:P. exists s, d2. pose proof (process_spec _ _ _ _ _ _ P) as Q.
  assert (R : read_files parse star_files d [] = Some (inl (List.concat parts))).
  { rewrite (read_files_ok star_files d [] parts); auto. clear - F2 W. unfold sources_whole in W. induction F2 as [|n l ns ls P _ IH]; constructor; [exists (remote n); split; auto; apply W; left; auto|apply IH; intros; apply W; right; auto]. }
  assert (e = Code 0) as -> by (unfold process in P; rewrite R, WO in P; cbn [negb] in P; destruct (remove_all star_files _); inversion P; auto). split; auto. destruct Q as (st & R' & _ & C & _ & CL & _). assert (st = List.concat parts) as -> by congruence. split; [|auto].
  unfold catalogue_whole. rewrite C. intros EQ. inversion EQ as [EQ']. apply (f_equal (@List.length Z)) in EQ'. rewrite firstn_length in EQ'. lia.
Qed.
(* REFUTED: a run stopped in the middle of a download leaves a part of the file, which the next run takes for the whole file: it ends with status 0 *)
Theorem C128_resume_refuted : forall net n k d, In n star_files -> t_open (net n) = true -> d n = None -> In k (t_moments (net n)) ->
  (forall m, In m star_files -> m <> n -> d m = Some (remote m)) ->
  exists x, In x (fst (fst (fetch_files false net star_files d))) /\ x n = Some (firstn k (t_sent (net n))) /\
            forall net', works net' -> fetch_files false net' star_files x = ([], x, 0%nat).
Proof.
  intros net n k d N O D K OTH. set (x := put d n (Some (firstn k (t_sent (net n))))). exists x. split; [|split; [apply put_same|]].
  - assert (G : forall names, In n names -> NoDup names -> (forall m, In m names -> m <> n -> d m <> None) -> In x (fst (fst (fetch_files false net names d)))).
    { induction names as [|m r IH]; intros I ND P; [destruct I|]. inversion ND; subst. cbn. destruct (string_dec m n) as [->|NE].
      - rewrite D. destruct (download d n (net n)) as ((s, d1), ok) eqn:DE. destruct (fetch_files false net r d1) as ((s2, d2), f2). cbn. apply in_or_app. left. unfold download in DE. rewrite O in DE. cbn [negb] in DE.
        assert (X : In x (put d n (Some []) :: map (fun k => put d n (Some (firstn k (t_sent (net n))))) (t_moments (net n)) ++ [put d n (Some (firstn (t_kept (net n)) (t_sent (net n))))])). { right. apply in_or_app. left. apply in_map_iff. exists k. auto. }
        destruct (t_ok (net n)); inversion DE; subst; [exact X|]. apply (in_or_app (put d n (Some []) :: map (fun k => put d n (Some (firstn k (t_sent (net n))))) (t_moments (net n)) ++ [put d n (Some (firstn (t_kept (net n)) (t_sent (net n))))])). left. exact X.
      - destruct (d m) as [c|] eqn:DM; [|exfalso; apply (P m (or_introl eq_refl) NE DM)]. destruct (fetch_files false net r d) as ((s2, d2), f2) eqn:E2. cbn. destruct I as [->|I]; [congruence|]. assert (IH' := IH I ltac:(assumption) (fun m0 I0 => P m0 (or_intror I0))). exact IH'. }
    apply G; auto using files_distinct. intros m M NE. rewrite (OTH m M NE). discriminate.
  - intros net' _. assert (G : forall names, (forall m, In m names -> x m <> None) -> fetch_files false net' names x = ([], x, 0%nat)).
    { induction names as [|m r IH]; intros P; [reflexivity|]. cbn. destruct (x m) as [c|] eqn:XM; [|exfalso; apply (P m (or_introl eq_refl) XM)]. rewrite IH by (intros; apply P; right; auto). reflexivity. }
    apply G. intros m M. destruct (string_dec n m) as [<-|NE]; [unfold x; rewrite put_same; discriminate|]. unfold x. rewrite put_other by auto. rewrite (OTH m M) by congruence. discriminate.
Qed.
(* REFUTED: with --force a download that fails takes the whole file of an earlier run with it; and one whose last bytes do not fit on the disk counts as done *)
Theorem C128_force_loses_refuted : forall d n t, d n = Some (remote n) -> t_open t = true -> t_ok t = false -> exists s d2, download d n t = (s, d2, false) /\ d2 n = None.
Proof. intros d n t D O K. unfold download. rewrite O, K. cbn [negb]. eexists. eexists. split; [reflexivity|apply put_same]. Qed.
Theorem C128_close_refuted : forall d n t, t_open t = true -> t_ok t = true -> t_sent t = remote n -> (t_kept t < List.length (remote n))%nat -> exists s d2, download d n t = (s, d2, true) /\ d2 n <> Some (remote n).
Proof.
  intros d n t O K S LT. unfold download. rewrite O, K. cbn [negb]. eexists. eexists. split; [reflexivity|]. rewrite put_same, S. intros E. inversion E as [E']. apply (f_equal (@List.length Z)) in E'. rewrite firstn_length in E'. lia.
Qed.
End Spec.
(* a network that serves one star per file and a disk with room *)
Example C128_nonvacuous : let remote := fun n : string => [Z.of_nat (String.length n); 1]%Z in let parse := fun (_ : string) (c : list Z) => Some [hd 0%Z c] in
  let net := fun n => Transfer true (remote n) true [0; 1]%nat 2 in let w := Writing true [5]%nat 22 in
  all_stars parse remote (repeat 11%Z 22) /\ faithful remote net /\ roomy net /\ works net /\
  snd (fetch parse (fun l => l) net w false true true (fun _ => None)) = Code 0 /\ snd (fst (fetch parse (fun l => l) net w false true true (fun _ => None))) catalogue_file = Some (repeat 11%Z 22).
Proof.
  cbv zeta. repeat split; try reflexivity. exists (repeat [11%Z] 22). split; [|reflexivity]. unfold star_files, two_digits. cbn. repeat (constructor; [reflexivity|]). constructor.
Qed.

(** C129 *)
(* a global flag *)
Definition verbose_flag (a : string) : Prop := a = "-v" \/ a = "--verbose".
Definition other_flag (a : string) : Prop := a = "--version" \/ a = "-h" \/ a = "--help".
Lemma scan_verbose flags : Forall verbose_flag flags -> forall rest v k, scan (flags ++ rest) v k = scan rest (match flags with [] => v | _ => true end) (List.length flags + k)%nat.
Proof.
  induction 1 as [|a l A _ IH]; intros rest v k; [reflexivity|]. cbn [app scan List.length]. assert (E : (String.eqb a "-v" || String.eqb a "--verbose")%bool = true) by (destruct A as [->| ->]; reflexivity). rewrite E, IH. replace (List.length l + S k)%nat with (S (List.length l) + k)%nat by lia. destruct l; reflexivity.
Qed.
Lemma not_verbose a : ~ verbose_flag a -> (String.eqb a "-v" || String.eqb a "--verbose")%bool = false.
Proof. intros H. apply orb_false_intro; apply String.eqb_neq; intros ->; apply H; [left|right]; reflexivity. Qed.
Lemma split_flags l : exists flags rest, l = flags ++ rest /\ Forall verbose_flag flags /\ (match rest with [] => True | a :: _ => ~ verbose_flag a end).
Proof.
  induction l as [|a l (flags & rest & -> & F & R)]; [exists [], []; repeat split; constructor|]. destruct (string_dec a "-v") as [->|N1]; [exists ("-v" :: flags), rest; repeat split; auto; constructor; auto; left; auto|]. destruct (string_dec a "--verbose") as [->|N2]; [exists ("--verbose" :: flags), rest; repeat split; auto; constructor; auto; right; auto|].
  exists [], (a :: flags ++ rest). repeat split; auto; try constructor. intros [|]; auto.
Qed.
(* for every command line: the verbose flags, then what the first other argument says *)
Theorem C129_dispatch : forall {F} (commands : string -> option F) program args, exists flags rest, args = flags ++ rest /\ Forall verbose_flag flags /\ (forall a, hd_error rest = Some a -> ~ verbose_flag a) /\
  dispatch commands (program :: args) =
    match rest with
    | [] => Help 1
    | a :: _ => if string_dec a "--version" then Version else if string_dec a "-h" then Help 0 else if string_dec a "--help" then Help 0
                else match commands a with None => Unknown a | Some _ => Run a (match flags with [] => false | _ => true end) rest end
    end.
Proof.
  intros F commands program args. destruct (split_flags args) as (flags & rest & -> & V & R). exists flags, rest. split; auto. split; auto. split; [destruct rest; cbn; intros x X; inversion X; subst; auto|]. unfold dispatch. cbn [List.length tl]. rewrite scan_verbose by auto.
  destruct rest as [|a rest].
  - cbn [scan]. rewrite app_nil_r. destruct flags as [|b flags]; [reflexivity|]. cbn [List.length]. change (S (S (List.length flags)) <? 2)%nat with false. cbv iota. rewrite (proj2 (Nat.leb_le _ _)) by lia. reflexivity.
  - rewrite app_length. cbn [List.length]. replace (S (List.length flags + S (List.length rest)) <? 2)%nat with false by (symmetry; apply Nat.ltb_ge; lia). cbn [scan]. rewrite (not_verbose a R). destruct (String.eqb_spec a "--version") as [->|N1]; [reflexivity|]. destruct (String.eqb_spec a "-h") as [->|N2]; [reflexivity|]. destruct (String.eqb_spec a "--help") as [->|N3]; [reflexivity|]. cbn [orb].
    destruct (string_dec a "--version"); [contradiction|]. destruct (string_dec a "-h"); [contradiction|]. destruct (string_dec a "--help"); [contradiction|].
    replace (S (List.length flags + S (List.length rest)) <=? List.length flags + 1)%nat with false by (symmetry; apply Nat.leb_gt; lia).
    assert (SK : skipn (List.length flags + 1) (program :: flags ++ a :: rest) = a :: rest). { rewrite Nat.add_1_r. cbn [skipn]. rewrite skipn_app, skipn_all, Nat.sub_diag. reflexivity. }
    assert (NT : nth_error (program :: flags ++ a :: rest) (List.length flags + 1) = Some a). { rewrite Nat.add_1_r. cbn [nth_error]. rewrite nth_error_app2, Nat.sub_diag by lia. reflexivity. }
    rewrite NT, SK. destruct (commands a); reflexivity.
Qed.
(* argv is never read outside its bounds, not even when it is empty *)
Theorem C129_in_bounds : forall {F} (commands : string -> option F) argv, dispatch commands argv <> Beyond.
Proof.
  intros F commands [|p args]; [discriminate|]. destruct (C129_dispatch commands p args) as (flags & rest & _ & _ & _ & ->). destruct rest as [|a r]; [discriminate|]. destruct (string_dec a "--version"); [discriminate|]. destruct (string_dec a "-h"); [discriminate|]. destruct (string_dec a "--help"); [discriminate|]. destruct (commands a); discriminate.
Qed.
(* registering twice keeps the first command; other names are not affected *)
Theorem C129_registry : forall {F} name (f g : F) r other, r name = None -> add name g (add name f r) name = Some f /\ (other <> name -> add name f r other = r other).
Proof. intros F name f g r other R. unfold add. rewrite String.eqb_refl. rewrite R. split; auto. intros N. destruct (String.eqb_spec name other); congruence. Qed.
Example C129_nonvacuous : let commands := fun n => if String.eqb n "fetch-tycho2" then Some tt else None in
  dispatch commands ["huira"; "-v"; "fetch-tycho2"; "-c"; "out"] = Run "fetch-tycho2" true ["fetch-tycho2"; "-c"; "out"] /\ dispatch commands ["huira"; "fetch-tycho2"; "-v"] = Run "fetch-tycho2" false ["fetch-tycho2"; "-v"] /\
  dispatch commands ["huira"; "fetch"] = Unknown "fetch" /\ dispatch commands ["huira"; "-v"] = Help 1.
Proof. repeat split. Qed.
