(** * C152: the stars of a scene are those of the last successful load, at the last epoch asked for. *)
From Verif Require Import Common Vec3 SpectralModel LightModel MotionModel StarLightModel StarSceneModel StarSceneSpec.
From Coq Require Import List Reals Permutation Lia Lra.
Import ListNotations.
Open Scope R_scope.

Lemma set_nth_length {A} (l : list A) i b a : nth_error l i = Some a -> List.length ((firstn i l ++ b :: skipn (S i) l)%list) = List.length l.
Proof. intros H. assert (i < List.length l)%nat by (apply nth_error_Some; congruence). rewrite app_length, firstn_length. cbn [List.length]. rewrite skipn_length. lia. Qed.
Lemma set_nth_get {A} (l : list A) i b a k : nth_error l i = Some a -> nth_error ((firstn i l ++ b :: skipn (S i) l)%list) k = if Nat.eq_dec k i then Some b else nth_error l k.
Proof.
  revert i k. induction l as [|x l IH]; intros i k H. { destruct i; discriminate. }
  destruct i as [|i]. { cbn. destruct k; reflexivity. }
  destruct k as [|k]; [reflexivity|]. change (nth_error ((firstn i l ++ b :: skipn (S i) l)%list) k = if Nat.eq_dec (S k) (S i) then Some b else nth_error l k). rewrite (IH i k H). destruct (Nat.eq_dec k i), (Nat.eq_dec (S k) (S i)); try reflexivity; lia.
Qed.
Lemma each_index_ok {A} (f : nat -> A -> outcome A) (g : nat -> A -> A) order : forall l, NoDup order ->
  (forall i, In i order -> exists a, nth_error l i = Some a /\ f i a = Ok (g i a)) ->
  exists l', each_index f order l = Ok l' /\ forall k, nth_error l' k = if in_dec Nat.eq_dec k order then option_map (g k) (nth_error l k) else nth_error l k.
Proof.
  induction order as [|i r IH]; intros l ND H. { exists l. split; auto. }
  inversion_clear ND as [|? ? N ND']. destruct (H i (or_introl eq_refl)) as (a & Ha & Hf). cbn [each_index]. rewrite Ha, Hf. cbn [obind].
  destruct (IH ((firstn i l ++ g i a :: skipn (S i) l)%list) ND') as (l' & E & G).
  { intros j J. destruct (H j (or_intror J)) as (b & Hb & Hg). exists b. rewrite (set_nth_get l i _ a j Ha). destruct (Nat.eq_dec j i) as [-> |]; [contradiction|auto]. }
  exists l'. split; auto. intros k. rewrite G, (set_nth_get l i _ a k Ha). destruct (in_dec Nat.eq_dec k r) as [I|I], (in_dec Nat.eq_dec k (i :: r)) as [J|J]; cbn [In] in J; destruct (Nat.eq_dec k i) as [-> |K]; try contradiction; try reflexivity.
  - exfalso. apply J. auto.
  - rewrite Ha. reflexivity.
  - destruct J; [congruence|contradiction].
  - exfalso. apply J. auto.
Qed.
Lemma nth_error_ext {A} (l m : list A) : (forall k, nth_error l k = nth_error m k) -> l = m.
Proof.
  revert m. induction l as [|x l IH]; intros [|y m] H; auto.
  - specialize (H O). discriminate.
  - specialize (H O). discriminate.
  - pose proof (H O) as H0. cbn in H0. injection H0 as ->. f_equal. apply IH. intros k. apply (H (S k)).
Qed.
Lemma each_index_all {A} (f : nat -> A -> outcome A) (g : nat -> A -> A) order l m : Permutation order (seq 0 (List.length l)) ->
  (forall i a, nth_error l i = Some a -> f i a = Ok (g i a)) -> (forall k, nth_error m k = option_map (g k) (nth_error l k)) -> each_index f order l = Ok m.
Proof.
  intros P F M. destruct (each_index_ok f g order l) as (l' & E & G).
  - eapply Permutation_NoDup; [apply Permutation_sym, P|apply seq_NoDup].
  - intros i I. apply (Permutation_in _ P) in I. apply in_seq in I. destruct (nth_error l i) as [a|] eqn:X. { exists a. auto. } apply nth_error_None in X. lia.
  - rewrite E. f_equal. apply nth_error_ext. intros k. rewrite G, M. destruct (in_dec Nat.eq_dec k order) as [I|I]; auto.
    destruct (nth_error l k) as [a|] eqn:X; auto. exfalso. apply I. apply (Permutation_in _ (Permutation_sym P)), in_seq. assert (k < List.length l)%nat by (apply nth_error_Some; congruence). lia.
Qed.
Lemma build_ok bins w data t y : any_schedule w -> w_years w t = Some y -> build bins w (Some data) t = Ok (map (make_star bins y) data).
Proof.
  intros S Y. unfold build. rewrite Y. apply (each_index_all _ (fun i a => match nth_error data i with Some d => make_star bins y d | None => a end)).
  - rewrite repeat_length. apply S.
  - intros i a H. destruct (nth_error data i) as [d|] eqn:D; auto. apply nth_error_None in D. assert (i < List.length (repeat blank_star (List.length data)))%nat by (apply nth_error_Some; congruence). rewrite repeat_length in *. lia.
  - intros k. rewrite nth_error_map. destruct (nth_error data k) as [d|] eqn:D.
    + assert (k < List.length data)%nat by (apply nth_error_Some; congruence). rewrite nth_error_repeat by auto. reflexivity.
    + apply nth_error_None in D. destruct (nth_error (repeat blank_star (List.length data)) k) eqn:X; auto. assert (k < List.length (repeat blank_star (List.length data)))%nat by (apply nth_error_Some; congruence). rewrite repeat_length in *. lia.
Qed.
Lemma build_cases bins w c t : any_schedule w -> build bins w c t = Throws /\ (c = None \/ w_years w t = None) \/
  exists data y, c = Some data /\ w_years w t = Some y /\ build bins w c t = Ok (map (make_star bins y) data).
Proof.
  intros S. destruct c as [data|]; [|left; split; auto; reflexivity]. destruct (w_years w t) as [y|] eqn:Y; [|left; split; auto; unfold build; rewrite Y; reflexivity].
  right. exists data, y. split; auto. split; auto. apply build_ok; auto.
Qed.
(* the invariant: moving stars are the stars of their catalogue at their epoch *)
Definition sound (bins : list bin) (years : R -> R) (s : stars) : Prop := k_dynamic s = true -> k_stars s = map (make_star bins (years (k_epoch s))) (k_data s).
Definition good (years : R -> R) (w : world) : Prop := one_calendar years w /\ any_schedule w.
Lemma update_ok bins w s years y : any_schedule w -> sound bins years s -> k_dynamic s = true ->
  each_index (fun i a => match nth_error (k_data s) i with Some d => Ok (update_direction y d a) | None => UB end) (w_order w (List.length (k_stars s))) (k_stars s) = Ok (map (make_star bins y) (k_data s)).
Proof.
  intros S I D. specialize (I D). apply (each_index_all _ (fun i a => match nth_error (k_data s) i with Some d => update_direction y d a | None => a end)); [apply S| |].
  - intros i a H. rewrite I, nth_error_map in H. destruct (nth_error (k_data s) i) as [d|]; [reflexivity|discriminate].
  - intros k. rewrite I, !nth_error_map. destruct (nth_error (k_data s) k) as [d|]; reflexivity.
Qed.
Lemma step_sound bins years w s c : good years w -> sound bins years s -> sound bins years (fst (step bins w s c)) /\ snd (step bins w s c) <> UB.
Proof.
  intros (C & S) I. destruct c as [l|c t|c t|t]; cbn [step].
  - split; [intros D; discriminate|discriminate].
  - destruct (build_cases bins w c t S) as [(E & _)|(data & y & -> & Y & E)]; rewrite E; cbn; split; auto; try discriminate.
  - destruct (build_cases bins w c t S) as [(E & _)|(data & y & -> & Y & E)]; rewrite E; cbn; split; auto; try discriminate. intros _. cbn. f_equal. f_equal. destruct (C t) as [X|X]; congruence.
  - destruct (k_dynamic s) eqn:D; cbn [negb]; [|split; auto; discriminate]. destruct (Req_EM_T t (k_epoch s)) as [E|E]; [split; auto; discriminate|].
    destruct (w_years w t) as [y|] eqn:Y; [|split; auto; discriminate]. pose proof (update_ok bins w s years y S I D) as U. rewrite U. cbn. split.
    + intros _. cbn. f_equal. f_equal. destruct (C t) as [X|X]; congruence.
    + destruct (w_log w && negb (w_utc w t))%bool; discriminate.
Qed.
Lemma run_sound bins years h : forall s, Forall (fun wc => good years (fst wc)) h -> sound bins years s -> sound bins years (fst (run bins s h)) /\ forall c r, In (c, r) (snd (run bins s h)) -> r <> UB.
Proof.
  induction h as [|(w, c) h IH]; intros s H I. { split; [auto|intros c r []]. }
  inversion_clear H as [|? ? G H']. cbn [fst] in G. destruct (step_sound bins years w s c G I) as (I' & U). cbn [run]. destruct (step bins w s c) as (s', r). cbn [fst snd] in *.
  destruct (IH s' H' I') as (A & B). destruct (run bins s' h) as (s'', tr). cbn [fst snd] in *. split; auto. intros c' r' [E|E]; [injection E as <- <-; auto|eauto].
Qed.
Lemma sound_start bins years : sound bins years no_stars. Proof. intros D. discriminate. Qed.

(* no history of calls reads outside the catalogue *)
Theorem C152_no_ub : forall bins years h, Forall (fun wc => one_calendar years (fst wc) /\ any_schedule (fst wc)) h -> forall c r, In (c, r) (snd (run bins no_stars h)) -> r <> UB.
Proof. intros bins years h H. apply (run_sound bins years h no_stars H), sound_start. Qed.
(* a call that throws changes nothing *)
Theorem C152_failure : forall bins years h w c, Forall (fun wc => one_calendar years (fst wc) /\ any_schedule (fst wc)) h -> one_calendar years w -> any_schedule w -> log_works w ->
  let s := fst (run bins no_stars h) in snd (step bins w s c) = Throws -> fst (step bins w s c) = s.
Proof.
  intros bins years h w c H C S L s T. destruct (run_sound bins years h no_stars H (sound_start bins years)) as (I & _). fold s in I. clearbody s. destruct c as [l|c t|c t|t]; cbn [step] in *.
  - discriminate.
  - destruct (build_cases bins w c t S) as [(E & _)|(data & y & -> & Y & E)]; rewrite E in *; auto. discriminate.
  - destruct (build_cases bins w c t S) as [(E & _)|(data & y & -> & Y & E)]; rewrite E in *; auto. discriminate.
  - destruct (k_dynamic s) eqn:D; cbn [negb] in *; auto. destruct (Req_EM_T t (k_epoch s)) as [E|E]; auto.
    destruct (w_years w t) as [y|] eqn:Y; auto. pose proof (update_ok bins w s years y S I D) as U. rewrite U in *. cbn [snd] in T.
    destruct (w_log w) eqn:G; cbn [andb] in T; [|discriminate]. rewrite (L G t) in T; [discriminate|congruence].
Qed.
(* which calls throw: loads without catalogue or kernels, and updates of moving stars to another epoch without kernels *)
Theorem C152_throws : forall bins years h w c, Forall (fun wc => one_calendar years (fst wc) /\ any_schedule (fst wc)) h -> one_calendar years w -> any_schedule w -> log_works w ->
  let s := fst (run bins no_stars h) in snd (step bins w s c) = Throws <->
  match c with
  | SetStars _ => False
  | LoadStars cat t | LoadDynamic cat t => cat = None \/ w_years w t = None
  | UpdateEpoch t => k_dynamic s = true /\ t <> k_epoch s /\ w_years w t = None
  end.
Proof.
  intros bins years h w c H C S L s. destruct (run_sound bins years h no_stars H (sound_start bins years)) as (I & _). fold s in I. clearbody s. destruct c as [ls|cc t|cc t|t]; cbn [step].
  - split; [discriminate|tauto].
  - destruct (build_cases bins w cc t S) as [(E & Q)|(data & y & -> & Y & E)]; rewrite E; cbn; [tauto|]. split; [discriminate|intros [Q|Q]; congruence].
  - destruct (build_cases bins w cc t S) as [(E & Q)|(data & y & -> & Y & E)]; rewrite E; cbn; [tauto|]. split; [discriminate|intros [Q|Q]; congruence].
  - destruct (k_dynamic s) eqn:D; cbn [negb]; [|cbn; split; [discriminate|intros (Q & _); discriminate]]. destruct (Req_EM_T t (k_epoch s)) as [E|E]; [cbn; split; [discriminate|tauto]|].
    destruct (w_years w t) as [y|] eqn:Y; [|cbn; tauto]. pose proof (update_ok bins w s years y S I D) as U. rewrite U. cbn [snd].
    assert (Z: (w_log w && negb (w_utc w t))%bool = false). { destruct (w_log w) eqn:G; auto. rewrite (L G t); [reflexivity|congruence]. } rewrite Z. split; [discriminate|intros (_ & _ & Q); discriminate].
Qed.
(* after a state reached, calls that do not load: a scene of fixed stars keeps them, moving stars are at the last epoch *)
Lemma after_ok bins years h : forall s, Forall (fun wc => good years (fst wc) /\ log_works (fst wc)) h -> sound bins years s -> no_load_in (snd (run bins s h)) ->
  let s' := fst (run bins s h) in k_dynamic s' = k_dynamic s /\ (k_dynamic s = false -> k_stars s' = k_stars s) /\
  (k_dynamic s = true -> k_data s' = k_data s /\ k_epoch s' = last_epoch (k_epoch s) (snd (run bins s h))).
Proof.
  induction h as [|(w, c) h IH]; intros s H I N; [cbn; auto|]. inversion_clear H as [|? ? ((C & S) & L) H']. cbn [fst] in *.
  destruct (step_sound bins years w s c (conj C S) I) as (I' & U). cbn [run] in *. destruct (step bins w s c) as (s', r) eqn:E. cbn [fst snd] in *.
  specialize (IH s' H' I'). destruct (run bins s' h) as (s'', tr) eqn:Rn. cbn [fst snd] in *.
  assert (N': no_load_in tr) by (intros d D; apply N; right; auto). specialize (IH N'). destruct IH as (A1 & A2 & A3).
  assert (X: is_load c -> r <> Ok tt) by (intros Lc ->; apply (N c); [left; auto|auto]).
  assert (K: s' = s /\ (r <> Ok tt \/ (exists t, c = UpdateEpoch t /\ (k_dynamic s = true -> t = k_epoch s))) \/ (exists t, c = UpdateEpoch t /\ r = Ok tt /\ k_dynamic s = true /\ k_dynamic s' = true /\ k_data s' = k_data s /\ k_epoch s' = t)).
  { clear A1 A2 A3 Rn N N' H'. destruct c as [ls|cc t|cc t|t]; cbn [step] in E.
    - injection E as <- <-. exfalso. apply (X Logic.I). reflexivity.
    - destruct (build_cases bins w cc t S) as [(B & _)|(data & y & -> & Y & B)]; rewrite B in E; injection E as <- <-. { left. split; auto. left. discriminate. } exfalso. apply (X Logic.I). reflexivity.
    - destruct (build_cases bins w cc t S) as [(B & _)|(data & y & -> & Y & B)]; rewrite B in E; injection E as <- <-. { left. split; auto. left. discriminate. } exfalso. apply (X Logic.I). reflexivity.
    - destruct (k_dynamic s) eqn:D; cbn [negb] in E; [|injection E as <- <-; left; split; auto; right; exists t; split; auto; discriminate].
      destruct (Req_EM_T t (k_epoch s)) as [Q|Q]; [injection E as <- <-; left; split; auto; right; exists t; auto|].
      destruct (w_years w t) as [y|] eqn:Y; [|injection E as <- <-; left; split; auto; left; discriminate]. pose proof (update_ok bins w s years y S I D) as V. rewrite V in E.
      assert (Z: (w_log w && negb (w_utc w t))%bool = false). { destruct (w_log w) eqn:G; auto. rewrite (L G t); [reflexivity|congruence]. } rewrite Z in E. injection E as <- <-. right. exists t. cbn. auto 10. }
  destruct K as [(-> & Q)|(t & -> & -> & D & D' & K1 & K2)].
  - split; auto. split; auto. intros D. destruct (A3 D) as (B1 & B2). split; auto. rewrite B2. destruct Q as [Q|(t & -> & Q)].
    + destruct c as [ls|cc t|cc t|t]; cbn [last_epoch]; auto. destruct r as [[]| |]; auto. congruence.
    + rewrite <- (Q D). cbn [last_epoch]. destruct r as [[]| |]; auto.
  - split; [congruence|]. split; [congruence|]. intros _. destruct (A3 D') as (B1 & B2). split; [congruence|]. rewrite B2, K2. reflexivity.
Qed.
Lemma run_app bins h1 : forall s h2, run bins s ((h1 ++ h2)%list) = (fst (run bins (fst (run bins s h1)) h2), (snd (run bins s h1) ++ snd (run bins (fst (run bins s h1)) h2))%list).
Proof.
  induction h1 as [|(w, c) h1 IH]; intros s h2. { cbn. destruct (run bins s h2); reflexivity. }
  cbn [run app]. destruct (step bins w s c) as (s', r). rewrite IH. destruct (run bins s' h1) as (s'', tr). reflexivity.
Qed.
Lemma run_split bins h : forall s before e after, snd (run bins s h) = (before ++ e :: after)%list -> exists h1 w h2, h = (h1 ++ (w, fst e) :: h2)%list /\
  snd (step bins w (fst (run bins s h1)) (fst e)) = snd e /\ snd (run bins (fst (step bins w (fst (run bins s h1)) (fst e))) h2) = after /\ fst (run bins s h) = fst (run bins (fst (step bins w (fst (run bins s h1)) (fst e))) h2).
Proof.
  induction h as [|(w, c) h IH]; intros s before e after E. { destruct before; discriminate. }
  cbn [run] in *. destruct (step bins w s c) as (s', r) eqn:T. destruct (run bins s' h) as (s'', tr) eqn:Rn. cbn [fst snd] in *. destruct before as [|b before].
  - cbn in E. injection E as <- <-. exists [], w, h. cbn [app fst snd run]. rewrite T. cbn [fst snd]. rewrite Rn. auto.
  - cbn in E. injection E as _ E. destruct (IH s' before e after) as (h1 & w' & h2 & Q1 & Q2 & Q3 & Q4); [rewrite Rn; auto|]. exists ((w, c) :: h1), w', h2. cbn [app run]. rewrite T. rewrite Rn in Q4. cbn [fst] in Q4.
    destruct (run bins s' h1) as (u, tu). cbn [fst snd] in *. rewrite Q1. auto.
Qed.
(* the stars of a scene, whatever was called before, in whatever surroundings and schedules *)
Theorem C152 : forall bins years h, Forall (fun wc => (one_calendar years (fst wc) /\ any_schedule (fst wc)) /\ log_works (fst wc)) h ->
  let '(s, trace) := run bins no_stars h in
  (no_load_in trace -> k_stars s = []) /\
  (forall l after, last_load trace (SetStars l) after -> k_stars s = l) /\
  (forall data t after, last_load trace (LoadStars (Some data) t) after -> k_stars s = map (make_star bins (years t)) data) /\
  (forall data t after, last_load trace (LoadDynamic (Some data) t) after -> k_stars s = map (make_star bins (years (last_epoch t after))) data) /\
  (forall c after t, last_load trace c after -> c <> LoadStars None t /\ c <> LoadDynamic None t).
Proof.
  intros bins years h H. destruct (run bins no_stars h) as (s, trace) eqn:Rn.
  assert (LL: forall c after, last_load trace c after -> exists h1 w h2, h = (h1 ++ (w, c) :: h2)%list /\ good years w /\ Forall (fun wc => good years (fst wc) /\ log_works (fst wc)) h2 /\
    let s1 := fst (run bins no_stars h1) in let s2 := fst (step bins w s1 c) in snd (step bins w s1 c) = Ok tt /\ sound bins years s2 /\ sound bins years s /\ no_load_in after /\ after = snd (run bins s2 h2) /\ s = fst (run bins s2 h2)).
  { intros c after (before & E & _ & N). destruct (run_split bins h no_stars before (c, Ok tt) after) as (h1 & w & h2 & Q1 & Q2 & Q3 & Q4); [rewrite Rn; auto|]. cbn [fst snd] in *.
    exists h1, w, h2. split; auto. rewrite Q1 in H. apply Forall_app in H. destruct H as (H1 & H2). inversion_clear H2 as [|? ? (G & _) H3]. cbn [fst] in G. split; auto. split; auto.
    assert (H1': Forall (fun wc => good years (fst wc)) h1) by (eapply Forall_impl; [|apply H1]; intros ? (K & _); exact K). assert (H3': Forall (fun wc => good years (fst wc)) h2) by (eapply Forall_impl; [|apply H3]; intros ? (K & _); exact K).
    destruct (run_sound bins years h1 no_stars H1' (sound_start bins years)) as (I1 & _). destruct (step_sound bins years w _ c G I1) as (I2 & _). destruct (run_sound bins years h2 _ H3' I2) as (I3 & _).
    rewrite Rn in Q4. cbn [fst] in Q4. cbn zeta. rewrite Q4 at 1. repeat split; auto. }
  split; [|split; [|split; [|split]]].
  - intros N. destruct (after_ok bins years h no_stars H (sound_start bins years)) as (A & B & _); [rewrite Rn; auto|]. rewrite Rn in B. apply B. reflexivity.
  - intros l after K. destruct (LL _ _ K) as (h1 & w & h2 & _ & _ & H2 & Z). cbn zeta in Z. cbn [step fst snd] in Z. destruct Z as (_ & I2 & _ & N & -> & ->). destruct (after_ok bins years h2 _ H2 I2 N) as (_ & B & _). apply B. reflexivity.
  - intros data t after K. destruct (LL _ _ K) as (h1 & w & h2 & _ & (C & S) & H2 & Z). cbn zeta in Z. cbn [step] in Z.
    destruct (build_cases bins w (Some data) t S) as [(E & _)|(d & y & D & Y & E)]; rewrite E in Z; cbn [fst snd] in Z; destruct Z as (Z & I2 & _ & N & -> & ->); [discriminate|]. injection D as <-.
    destruct (after_ok bins years h2 _ H2 I2 N) as (_ & B & _). rewrite (B eq_refl). cbn. f_equal. f_equal. destruct (C t) as [X|X]; congruence.
  - intros data t after K. destruct (LL _ _ K) as (h1 & w & h2 & _ & (C & S) & H2 & Z). cbn zeta in Z. cbn [step] in Z.
    destruct (build_cases bins w (Some data) t S) as [(E & _)|(d & y & D & Y & E)]; rewrite E in Z; cbn [fst snd] in Z; destruct Z as (Z & I2 & I3 & N & -> & ->); [discriminate|]. injection D as <-.
    destruct (after_ok bins years h2 _ H2 I2 N) as (A & _ & B). destruct (B eq_refl) as (B1 & B2). cbn [k_data k_epoch] in *. rewrite (I3 A), B1, B2. reflexivity.
  - intros c after t K. destruct (LL _ _ K) as (h1 & w & h2 & _ & _ & _ & Z & _). split; intros ->; cbn in Z; discriminate.
Qed.
Lemma last_epoch_end us v : forall t, last_epoch t ((map (fun u => (UpdateEpoch u, Ok tt)) us ++ [(UpdateEpoch v, Ok tt)])%list) = v.
Proof. induction us as [|u us IH]; intros t; cbn; auto. Qed.
(* going to other epochs and back gives exactly the stars of the start: directions do not drift and the light stays *)
Theorem C152_back : forall bins years w data t ts, one_calendar years w -> any_schedule w -> log_works w -> (forall u, w_years w u <> None) ->
  let h us := (w, LoadDynamic (Some data) t) :: map (fun u => (w, UpdateEpoch u)) us in
  k_stars (fst (run bins no_stars (h ((ts ++ [t])%list)))) = k_stars (fst (run bins no_stars (h []))).
Proof.
  intros bins years w data t ts C S L Y h.
  assert (Q: forall us, k_stars (fst (run bins no_stars (h us))) = map (make_star bins (years (last_epoch t (map (fun u => (UpdateEpoch u, Ok tt)) us)))) data).
  { intros us. assert (F: Forall (fun wc => (one_calendar years (fst wc) /\ any_schedule (fst wc)) /\ log_works (fst wc)) (h us)).
    { unfold h. constructor; [auto|]. apply Forall_forall. intros x X. apply in_map_iff in X. destruct X as (u & <- & _). auto. }
    pose proof (C152 bins years (h us) F) as T. pose proof (C152_no_ub bins years (h us)) as NU.
    assert (TR: forall s, sound bins years s -> k_dynamic s = true -> snd (run bins s (map (fun u => (w, UpdateEpoch u)) us)) = map (fun u => (UpdateEpoch u, Ok tt)) us).
    { clear T NU F. induction us as [|u us IH]; intros s I D; auto. cbn [map run]. destruct (step_sound bins years w s (UpdateEpoch u) (conj C S) I) as (I' & _). destruct (step bins w s (UpdateEpoch u)) as (s', r) eqn:E. cbn [fst] in I'.
      assert (r = Ok tt /\ k_dynamic s' = true) as (-> & D'). { cbn [step] in E. rewrite D in E. cbn [negb] in E. destruct (Req_EM_T u (k_epoch s)); [injection E as <- <-; auto|].
        destruct (w_years w u) as [y|] eqn:Yu; [|exfalso; apply (Y u Yu)]. pose proof (update_ok bins w s years y S I D) as V. rewrite V in E. assert (Z: (w_log w && negb (w_utc w u))%bool = false) by (destruct (w_log w) eqn:G; auto; rewrite (L G u); [reflexivity|congruence]). rewrite Z in E. injection E as <- <-. auto. }
      specialize (IH s' I' D'). destruct (run bins s' _) as (s'', tr). cbn [snd] in *. rewrite IH. reflexivity. }
    destruct (run bins no_stars (h us)) as (s, tr) eqn:Rn. cbn [fst]. destruct T as (_ & _ & _ & T & _). apply T with (t := t). exists []. cbn [app]. split; [|split; [exact Logic.I|]].
    - unfold h in Rn. cbn [run] in Rn. destruct (step_sound bins years w no_stars (LoadDynamic (Some data) t) (conj C S) (sound_start bins years)) as (I' & _). cbn [step] in *. destruct (build_cases bins w (Some data) t S) as [(_ & [X|X])|(d & y & D & Yt & E)]; [discriminate|exfalso; apply (Y t X)|]. injection D as <-. rewrite E in *. cbn [fst] in I'. specialize (TR _ I' eq_refl). destruct (run bins _ (map _ us)) as (s'', tr'') in Rn, TR. cbn [snd] in TR. injection Rn as _ <-. rewrite TR. reflexivity.
    - intros c X. apply in_map_iff in X. destruct X as (u & X & _). injection X as <-. auto. }
  rewrite !Q, map_app. cbn [map last_epoch]. rewrite last_epoch_end. reflexivity.
Qed.
Definition quiet (years : R -> option R) (log : bool) : world := W years (fun _ => false) log (fun n => seq 0 n).
Definition comet : sdata := SD 0 0 0 (180 * 3600 * 1000) 5000 1.
Lemma comet_directions : vz (star_direction 0 0 0 (180 * 3600 * 1000) 0) = 0 /\ vz (star_direction 0 0 0 (180 * 3600 * 1000) (1 / 2)) <> 0.
Proof.
  unfold star_direction, MAS_TO_RAD. pose proof PI_RGT_0. replace (0 + 180 * 3600 * 1000 * (PI / (180 * 3600 * 1000)) * 0) with 0 by field. replace (0 + 180 * 3600 * 1000 * (PI / (180 * 3600 * 1000)) * (1 / 2)) with (PI / 2) by field.
  rewrite sin_0, cos_0, sin_PI2, cos_PI2. cbv zeta. unfold TransformModel.normalize. cbn [vz vscale]. split; [cbn; ring|]. set (v := V3 _ _ _). rewrite Rmult_1_r.
  apply Rinv_neq_0_compat. unfold vlen, v, dot. cbn. replace (_ + 1 * 1) with 1 by ring. rewrite sqrt_1. lra.
Qed.
(* full statement without [one_calendar]: refuted. Asking again for the same epoch after another leap second kernel was loaded does nothing *)
Theorem C152_refuted_kernels : exists bins w1 w2 data t y, any_schedule w1 /\ any_schedule w2 /\ w_years w2 t = Some y /\
  let s := run bins no_stars [(w1, LoadDynamic (Some data) t); (w2, UpdateEpoch t)] in map snd (snd s) = [Ok tt; Ok tt] /\ k_stars (fst s) <> map (make_star bins y) data.
Proof.
  exists [], (quiet (fun _ => Some 0) false), (quiet (fun _ => Some (1 / 2)) false), [comet], 0, (1 / 2). split; [intros n; apply Permutation_refl|]. split; [intros n; apply Permutation_refl|]. split; [reflexivity|].
  cbn. destruct (Req_EM_T 0 0) as [_|N]; [|exfalso; apply N; reflexivity]. cbn. split; auto. intros E. injection E as E. destruct comet_directions as (A & B). apply B. rewrite <- A. unfold star_direction, make_star in *. cbn in *. congruence.
Qed.
(* full statement without [log_works]: refuted. When the message cannot be written the call throws, but the stars have moved *)
Theorem C152_refuted_log : exists bins years w data t u, one_calendar years w /\ any_schedule w /\
  let s1 := fst (run bins no_stars [(w, LoadDynamic (Some data) t)]) in snd (step bins w s1 (UpdateEpoch u)) = Throws /\ k_stars (fst (step bins w s1 (UpdateEpoch u))) <> k_stars s1.
Proof.
  exists [], (fun t => t), (quiet (fun t => Some t) true), [comet], 0, (1 / 2). split; [intros t; right; reflexivity|]. split; [intros n; apply Permutation_refl|].
  cbn. destruct (Req_EM_T (1 / 2) 0) as [N|_]; [lra|]. cbn. split; auto. intros E. injection E as E. destruct comet_directions as (A & B). apply B. rewrite <- A. unfold star_direction, make_star in *. cbn in *. congruence.
Qed.
(* a history that meets the hypotheses: a load without kernels fails, then one succeeds, moves, and the last word is a static load of two stars *)
Example C152_case : let w := quiet (fun t => Some t) false in let none := quiet (fun _ => None) true in
  let h := [(none, LoadDynamic (Some [comet]) 0); (w, LoadDynamic (Some [comet]) 0); (w, UpdateEpoch 1); (w, LoadStars (Some [comet; comet]) 2); (none, UpdateEpoch 5)] in
  Forall (fun wc => (one_calendar (fun t => t) (fst wc) /\ any_schedule (fst wc)) /\ log_works (fst wc)) h /\
  map snd (snd (run [] no_stars h)) = [Throws; Ok tt; Ok tt; Ok tt; Ok tt] /\ List.length (k_stars (fst (run [] no_stars h))) = 2%nat /\
  last_load (snd (run [] no_stars h)) (LoadStars (Some [comet; comet]) 2) [(UpdateEpoch 5, Ok tt)].
Proof.
  assert (W1: (one_calendar (fun t => t) (quiet (fun t => Some t) false) /\ any_schedule (quiet (fun t => Some t) false)) /\ log_works (quiet (fun t => Some t) false)).
  { split; [split; [intros t; right; reflexivity|intros n; apply Permutation_refl]|intros X; discriminate]. }
  assert (W2: (one_calendar (fun t => t) (quiet (fun _ => None) true) /\ any_schedule (quiet (fun _ => None) true)) /\ log_works (quiet (fun _ => None) true)).
  { split; [split; [intros t; left; reflexivity|intros n; apply Permutation_refl]|intros X t Y; exfalso; apply Y; reflexivity]. }
  cbv zeta. split; [repeat (apply Forall_cons; [exact W1 || exact W2|]); apply Forall_nil|]. cbn. destruct (Req_EM_T 1 0) as [N|_]; [lra|]. cbn. split; auto. split; auto.
  eexists [_; _; _]. split; [reflexivity|]. split; [exact I|]. intros c [E|[]]. injection E as <-. auto.
Qed.
