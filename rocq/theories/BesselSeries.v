(* The Bessel function J1 as a power series, its differential equation, and numerical values of such series. *)
From Verif Require Import PolyCheck.
From Coq Require Import Reals Lra Lia List ZArith Psatz.
From Coquelicot Require Import Coquelicot.
Import ListNotations.
Open Scope R_scope.

(** series whose terms halve *)
Lemma geo_series (c : nat -> R) M : (forall k, Rabs (c k) <= M * (1 / 2) ^ k) -> ex_series c /\ Rabs (Series c) <= 2 * M.
Proof.
  intros H. assert (GS : is_series (fun k => M * (1 / 2) ^ k) (M * 2)).
  { replace (M * 2) with (scal M (/ (1 - 1 / 2))) by (unfold scal; cbn; unfold mult; cbn; field). apply (is_series_scal_l M (fun k => (1 / 2) ^ k)). apply is_series_geom. rewrite Rabs_pos_eq; lra. }
  assert (EG : ex_series (fun k => M * (1 / 2) ^ k)) by (eexists; eauto).
  assert (EA : ex_series (fun k => Rabs (c k))). { apply (ex_series_le (fun k => Rabs (c k)) (fun k => M * (1 / 2) ^ k)); auto. intros n. change (Rabs (Rabs (c n)) <= M * (1 / 2) ^ n). rewrite Rabs_Rabsolu. auto. }
  split; [apply ex_series_Rabs; auto|]. eapply Rle_trans; [apply Series_Rabs; auto|]. replace (2 * M) with (Series (fun k => M * (1 / 2) ^ k)) by (rewrite (is_series_unique _ _ GS); ring).
  apply Series_le; auto. intros n. split; [apply Rabs_pos|auto].
Qed.
(* c 0 (1 - u / r0 (1 - u / r1 (...))) *)
Fixpoint nest (l : list R) (u : R) : R := match l with [] => 0 | r :: t => 1 - u / r * nest t u end.
Lemma nest_sum (c : nat -> R) (r : nat -> R) u n : (forall k, r k <> 0) -> (forall k, c (S k) = - c k * u / r k) -> forall m, (exists rest, c m * nest (map r (seq m n)) u + rest = sum_f_R0 (fun k => c (m + k)%nat) n /\ rest = c (m + n)%nat).
Proof.
  intros R0 C. induction n as [|n IH]; intros m.
  - exists (c (m + 0)%nat). cbn. split; auto. ring.
  - destruct (IH (S m)) as (rest & E & ->). exists (c (m + S n)%nat). split; auto. cbn [seq map nest]. rewrite decomp_sum by lia. cbn [pred]. rewrite Nat.add_0_r.
    replace (sum_f_R0 (fun i => c (m + S i)%nat) n) with (sum_f_R0 (fun k => c (S m + k)%nat) n) by (apply sum_eq; intros; f_equal; lia). rewrite <- E. replace (S m + n)%nat with (m + S n)%nat by lia.
    rewrite (C m). field. auto.
Qed.
Lemma alt_series (c : nat -> R) (r : nat -> R) u n : (forall k, 0 < r k) -> (forall k, c (S k) = - c k * u / r k) -> (forall k, (n <= k)%nat -> 2 * Rabs u <= r k) ->
  ex_series c /\ Rabs (Series c - c 0%nat * nest (map r (seq 0 n)) u) <= 2 * Rabs (c n).
Proof.
  intros R0 C H. assert (G : forall k, Rabs (c (n + k)%nat) <= Rabs (c n) * (1 / 2) ^ k).
  { induction k as [|k IH]; [rewrite Nat.add_0_r; cbn; lra|]. replace (n + S k)%nat with (S (n + k)) by lia. rewrite C. replace (- c (n + k)%nat * u / r (n + k)%nat) with (- (c (n + k)%nat * (u / r (n + k)%nat))) by (unfold Rdiv; ring). rewrite Rabs_Ropp, Rabs_mult.
    assert (Q : Rabs (u / r (n + k)%nat) <= 1 / 2). { unfold Rdiv at 1. pose proof (R0 (n + k)%nat). rewrite Rabs_mult, (Rabs_pos_eq (/ r _)) by (left; apply Rinv_0_lt_compat; auto). apply (Rmult_le_reg_r (r (n + k)%nat)); auto. rewrite Rmult_assoc, Rinv_l by lra. specialize (H (n + k)%nat ltac:(lia)). lra. }
    cbn [pow]. pose proof (Rabs_pos (c (n + k)%nat)). pose proof (Rabs_pos (u / r (n + k)%nat)). nra. }
  destruct (geo_series (fun k => c (n + k)%nat) _ G) as (EX & BD). assert (EC : ex_series c) by (apply (ex_series_incr_n c n); auto). split; auto.
  destruct (nest_sum c r u n ltac:(intros k; specialize (R0 k); lra) C 0%nat) as (rest & E & ->). cbn [plus] in *.
  destruct n as [|n].
  - cbn in *. rewrite Rmult_0_r, Rminus_0_r. replace (Series c) with (Series (fun k => c (0 + k)%nat)) by (apply Series_ext; reflexivity). auto.
  - rewrite (Series_incr_n c (S n) (Nat.lt_0_succ n) EC). cbn [Init.Nat.pred]. cbn [sum_f_R0] in E.
    match goal with |- Rabs (?a + ?b - ?q) <= _ => replace (a + b - q) with b; [exact BD|] end.
    match goal with |- ?b = ?a + ?b - ?q => assert (a = q); [idtac|lra] end. change (fun k : nat => c (0 + k)%nat) with c in E. eapply Rplus_eq_reg_r. symmetry. exact E.
Qed.

(** J1 *)
Definition ja (k : nat) : R := (-1) ^ k / (INR (fact k) * INR (fact (S k))).
Lemma ja_neq k : ja k <> 0.
Proof. unfold ja. apply Rmult_integral_contrapositive_currified; [apply pow_nonzero; lra|]. apply Rinv_neq_0_compat, Rmult_integral_contrapositive_currified; apply INR_fact_neq_0. Qed.
Lemma ja_S k : ja (S k) = - ja k / (INR (S k) * INR (S (S k))).
Proof. unfold ja. cbn [pow]. rewrite (fact_simpl (S k)), (fact_simpl k), !mult_INR. field. repeat split; try apply INR_fact_neq_0; apply not_0_INR; lia. Qed.
Lemma ja_cv : CV_radius ja = p_infty.
Proof.
  apply CV_radius_infinite_DAlembert; [apply ja_neq|]. apply is_lim_seq_ext with (fun n => / (INR (S n) * INR (S (S n)))).
  - intros n. rewrite ja_S. pose proof (ja_neq n). assert (0 < INR (S n)) by (apply lt_0_INR; lia). assert (0 < INR (S (S n))) by (apply lt_0_INR; lia).
    replace (- ja n / (INR (S n) * INR (S (S n))) / ja n) with (- / (INR (S n) * INR (S (S n)))) by (field; repeat split; lra). rewrite Rabs_Ropp, Rabs_pos_eq; auto. left. apply Rinv_0_lt_compat. nra.
  - apply is_lim_seq_le_le with (u := fun n => 0) (w := fun n => / INR (S n)).
    + intros n. assert (1 <= INR (S n)) by (rewrite S_INR; pose proof (pos_INR n); lra). assert (1 <= INR (S (S n))) by (rewrite S_INR; lra). split; [left; apply Rinv_0_lt_compat; nra|apply Rinv_le_contravar; nra].
    + apply is_lim_seq_const.
    + apply (is_lim_seq_incr_1 (fun n => / INR n)). replace (Finite 0) with (Rbar_inv p_infty) by reflexivity. apply is_lim_seq_inv; [apply is_lim_seq_INR|discriminate].
Qed.
Definition jg (u : R) : R := PSeries ja u.
Definition jg' (u : R) : R := PSeries (PS_derive ja) u.
Definition jg'' (u : R) : R := PSeries (PS_derive (PS_derive ja)) u.
Lemma cv' : CV_radius (PS_derive ja) = p_infty. Proof. rewrite CV_radius_derive. apply ja_cv. Qed.
Lemma cv'' : CV_radius (PS_derive (PS_derive ja)) = p_infty. Proof. rewrite CV_radius_derive. apply cv'. Qed.
Lemma jg_d u : is_derive jg u (jg' u). Proof. apply is_derive_PSeries. rewrite ja_cv. exact I. Qed.
Lemma jg_d' u : is_derive jg' u (jg'' u). Proof. apply is_derive_PSeries. rewrite cv'. exact I. Qed.
Lemma ex_inf a u : CV_radius a = p_infty -> ex_pseries a u.
Proof. intros C. apply CV_disk_correct. apply CV_disk_inside. rewrite C. exact I. Qed.
Lemma jg_ode u : u * jg'' u + 2 * jg' u + jg u = 0.
Proof.
  unfold jg'', jg', jg. rewrite <- PSeries_incr_1. rewrite <- PSeries_scal.
  rewrite <- PSeries_plus by (apply ex_inf; [rewrite <- CV_radius_incr_1 || idtac; apply cv''] || (apply ex_pseries_incr_1, ex_inf, cv'') || (apply ex_pseries_scal; [apply Rmult_comm|apply ex_inf, cv'])).
  rewrite <- PSeries_plus. 2:{ apply ex_pseries_plus; [apply ex_pseries_incr_1, ex_inf, cv''|apply ex_pseries_scal; [apply Rmult_comm|apply ex_inf, cv']]. } 2: apply ex_inf, ja_cv.
  rewrite (PSeries_ext _ (fun _ => 0)); [apply PSeries_const_0|]. intros [|n]; unfold PS_plus, PS_scal, PS_incr_1, PS_derive, plus, scal, mult; cbn -[INR ja]; unfold mult; cbn -[INR ja].
  - rewrite ja_S. cbn [INR]. field.
  - rewrite (ja_S (S n)). set (q := ja (S n)). rewrite !S_INR. pose proof (pos_INR n). field. lra.
Qed.
(* J1 and its derivatives, for any real x *)
Definition J1 (x : R) : R := x / 2 * jg (x * x / 4).
Definition J1' (x : R) : R := jg (x * x / 4) / 2 + x * x / 4 * jg' (x * x / 4).
Lemma d_eq (f : R -> R) (x l l' : R) : is_derive f x l -> l = l' -> is_derive f x l'.
Proof. intros H <-. exact H. Qed.
Lemma d_mul (f g : R -> R) (x a b : R) : is_derive f x a -> is_derive g x b -> is_derive (fun t => f t * g t) x (a * g x + f x * b).
Proof. intros F G. apply (is_derive_mult f g x a b F G Rmult_comm). Qed.
Lemma d_add (f g : R -> R) (x a b : R) : is_derive f x a -> is_derive g x b -> is_derive (fun t => f t + g t) x (a + b).
Proof. intros F G. apply (is_derive_plus f g x a b F G). Qed.
Lemma d_comp (f g : R -> R) (x a b : R) : is_derive f (g x) a -> is_derive g x b -> is_derive (fun t => f (g t)) x (b * a).
Proof. intros F G. apply (is_derive_comp f g x a b F G). Qed.
Lemma sq4_d x : is_derive (fun t => t * t / 4) x (x / 2).
Proof. auto_derive; auto. field. Qed.
Lemma half_d x : is_derive (fun t : R => t / 2) x (1 / 2).
Proof. auto_derive; auto. Qed.
Lemma J1_d x : is_derive J1 x (J1' x).
Proof.
  unfold J1, J1'. eapply d_eq; [apply (d_mul (fun t => t / 2) (fun t => jg (t * t / 4))); [apply half_d|apply (d_comp jg (fun t => t * t / 4)); [apply jg_d|apply sq4_d]]|]. field.
Qed.
Lemma J1_d' x : x <> 0 -> is_derive J1' x (- J1' x / x - (1 - 1 / (x * x)) * J1 x).
Proof.
  intros X. pose proof (jg_ode (x * x / 4)) as O. unfold J1'. eapply d_eq.
  - apply (d_add (fun t => jg (t * t / 4) / 2) (fun t => t * t / 4 * jg' (t * t / 4))).
    + apply (d_comp (fun t => t / 2) (fun t => jg (t * t / 4))); [apply half_d|apply (d_comp jg (fun t => t * t / 4)); [apply jg_d|apply sq4_d]].
    + apply (d_mul (fun t => t * t / 4) (fun t => jg' (t * t / 4))); [apply sq4_d|apply (d_comp jg' (fun t => t * t / 4)); [apply jg_d'|apply sq4_d]].
  - unfold J1. cbv beta. set (u := x * x / 4) in *. replace (u * (x / 2 * jg'' u)) with (x / 2 * (- 2 * jg' u - jg u)) by (rewrite <- (Rplus_0_r (- 2 * jg' u - jg u)), <- O; ring). unfold u. field. auto.
Qed.
(* the definition *)
Definition is_J1 (x v : R) : Prop := infinite_sum (fun k => (-1) ^ k / (INR (fact k) * INR (fact (k + 1))) * (x / 2) ^ (2 * k + 1)) v.
Lemma J1_is x : is_J1 x (J1 x).
Proof.
  unfold is_J1. apply is_series_Reals. unfold J1. apply is_series_ext with (fun k => scal (x / 2) (ja k * (x * x / 4) ^ k)).
  - intros k. assert (E : (x / 2) ^ (2 * k + 1) = x / 2 * (x * x / 4) ^ k). { replace (2 * k + 1)%nat with (S (2 * k)) by lia. rewrite <- tech_pow_Rmult, pow_mult. do 2 f_equal. field. }
    rewrite E. unfold scal; cbn -[fact]. unfold mult; cbn -[fact]. unfold ja. rewrite Nat.add_1_r. ring.
  - apply (is_series_scal_l (x / 2) (fun k => ja k * (x * x / 4) ^ k)). unfold jg, PSeries. apply Series_correct. pose proof (ex_inf ja (x * x / 4) ja_cv) as (l & E). exists l. apply is_pseries_R. exact E.
Qed.
Lemma is_J1_unique x v : is_J1 x v -> v = J1 x.
Proof. intros H. eapply uniqueness_sum; [exact H|apply J1_is]. Qed.
