(* C120: what a material shades with is what its last edits say. *)
From Coq Require Import Reals Lra.
From Verif Require Import Common Vec3 LightModel BsdfModel MaterialModel.
Open Scope R_scope.

(** Specification: history, most recent edit first *)
(* the image and the factor given to a parameter since its last reset *)
Fixpoint given_image (s : slot) (h : list edit) : option texture :=
  match h with
  | [] => None
  | SetImage t i :: r => if slot_eqb s t then Some i else given_image s r
  | Reset t :: r => if slot_eqb s t then None else given_image s r
  | _ :: r => given_image s r
  end.
Fixpoint given_factor (s : slot) (h : list edit) : option R :=
  match h with
  | [] => None
  | SetFactor t f :: r => if slot_eqb s t then Some f else given_factor s r
  | Reset t :: r => if slot_eqb s t then None else given_factor s r
  | _ :: r => given_factor s r
  end.
(* metallic, transmission and emission are off until given an image or a factor *)
Definition off_by_default (s : slot) : Prop := s = Metallic \/ s = Transmission \/ s = Emissive.
(* the value of a parameter at (u, v) *)
Definition says (s : slot) (h : list edit) (u v x : R) : Prop :=
  match given_image s h, given_factor s h with
  | Some i, Some f => x = t_sample i u v * f
  | Some i, None => x = t_sample i u v
  | None, Some f => x = f
  | None, None => (off_by_default s /\ x = 0) \/ (~ off_by_default s /\ x = 1)
  end.
Fixpoint given_bsdf (b : bsdf) (h : list edit) : bsdf := match h with [] => b | SetBsdf b' :: _ => b' | _ :: r => given_bsdf b r end.

(** Proofs *)
Lemma slot_eqb_eq a b : slot_eqb a b = true <-> a = b.
Proof. destruct a, b; cbn; split; congruence. Qed.
Lemma slot_eqb_refl s : slot_eqb s s = true. Proof. destruct s; auto. Qed.
Lemma slot_eqb_sym a b : slot_eqb a b = slot_eqb b a. Proof. destruct a, b; auto. Qed.
Lemma edits_app l e m : edits (l ++ [e]) m = apply_edit (edits l m) e.
Proof. unfold edits. apply fold_left_app. Qed.
Lemma image_is b s l : m_image (edits l (new_material b)) s = match given_image s (rev l) with Some i => i | None => default_image end.
Proof.
  induction l as [|e l IH] using rev_ind; [reflexivity|]. rewrite edits_app, rev_app_distr. set (m := edits l (new_material b)) in *. clearbody m. cbn [rev app given_image].
  destruct e as [b'|t i|t f|t]; cbn [apply_edit given_image]; auto.
  - rewrite slot_eqb_sym. unfold set_image. destruct t; cbn [m_image]; unfold put; destruct (slot_eqb _ s) eqn:E; auto.
  - unfold set_factor. destruct t; exact IH.
  - rewrite slot_eqb_sym. unfold reset. destruct t; cbn [m_image]; unfold put; destruct (slot_eqb _ s) eqn:E; auto.
Qed.
Definition no_zero (h : list edit) : Prop := forall s f, off_by_default s -> In (SetFactor s f) h -> f <> 0.
Lemma off_dec s : {off_by_default s} + {~ off_by_default s}.
Proof. unfold off_by_default. destruct s; (left; tauto) || (right; intuition discriminate). Qed.
Definition factor_spec (s : slot) (h : list edit) : R :=
  match given_factor s h with Some f => f | None => if off_dec s then match given_image s h with Some _ => 1 | None => 0 end else 1 end.
Lemma given_factor_in s h f : given_factor s h = Some f -> In (SetFactor s f) h.
Proof.
  induction h as [|e h IH]; cbn; [discriminate|]. destruct e as [b|t i|t g|t]; auto.
  - destruct (slot_eqb s t) eqn:E; auto. intros H. injection H as ->. apply slot_eqb_eq in E. subst. auto.
  - destruct (slot_eqb s t); [discriminate|auto].
Qed.
Lemma factor_zero s h : off_by_default s -> no_zero h -> factor_spec s h = 0 -> given_image s h = None /\ given_factor s h = None.
Proof.
  intros O N. unfold factor_spec. destruct (given_factor s h) eqn:F; [intros ->; exfalso; eapply N; eauto using given_factor_in|]. destruct (off_dec s); [|contradiction]. destruct (given_image s h); [lra|auto].
Qed.
Lemma factor_is b s l : no_zero l -> m_factor (edits l (new_material b)) s = factor_spec s (rev l).
Proof.
  induction l as [|e l IH] using rev_ind; intros N.
  - cbn. unfold factor_spec. cbn. destruct (off_dec s) as [[->|[->| ->]]|]; auto. destruct s; auto; exfalso; unfold off_by_default in *; tauto.
  - assert (N' : no_zero l) by (intros t f O I; apply (N t f O); apply in_or_app; auto). specialize (IH N'). assert (NR : no_zero (rev l)) by (intros t f O I; apply (N' t f O); apply in_rev; auto).
    rewrite edits_app, rev_app_distr. set (m := edits l (new_material b)) in *. clearbody m. cbn [rev app].
    destruct e as [b'|t i|t f|t]; cbn [apply_edit].
    + exact IH.
    + unfold factor_spec. cbn [given_factor given_image]. destruct (slot_eqb s t) eqn:E.
      * apply slot_eqb_eq in E. subst t. destruct (off_dec s) as [O|O].
        -- assert (FE : m_factor (set_image s i m) s = if Req_EM_T (m_factor m s) 0 then 1 else m_factor m s).
           { unfold off_by_default in O. destruct s; try (exfalso; intuition discriminate); cbn [set_image m_factor]; destruct (Req_EM_T _ 0); unfold put; cbn; auto. }
           rewrite FE. destruct (Req_EM_T (m_factor m s) 0) as [Z|Z].
           ++ rewrite IH in Z. apply factor_zero in Z as (_ & ->); auto.
           ++ rewrite IH in *. unfold factor_spec in *. destruct (given_factor s (rev l)); auto. destruct (off_dec s); [|contradiction]. destruct (given_image s (rev l)); auto. congruence.
        -- assert (FE : m_factor (set_image s i m) s = m_factor m s) by (unfold off_by_default in O; destruct s; try reflexivity; exfalso; tauto). rewrite FE, IH. unfold factor_spec. destruct (given_factor s (rev l)); auto. destruct (off_dec s); [contradiction|auto].
      * assert (FE : m_factor (set_image t i m) s = m_factor m s). { destruct t; cbn [set_image m_factor]; auto; destruct (Req_EM_T _ 0); auto; unfold put; rewrite slot_eqb_sym, E; auto. } rewrite FE, IH. reflexivity.
    + unfold factor_spec. cbn [given_factor given_image]. assert (FE : m_factor (set_factor t f m) s = if slot_eqb s t then f else m_factor m s) by (rewrite slot_eqb_sym; destruct t; reflexivity). rewrite FE. destruct (slot_eqb s t); auto.
    + unfold factor_spec. cbn [given_factor given_image]. assert (FE : m_factor (reset t m) s = if slot_eqb s t then default_factor s else m_factor m s). { rewrite slot_eqb_sym. unfold reset. destruct t; cbn [m_factor]; unfold put; destruct (slot_eqb _ s) eqn:E; auto; apply slot_eqb_eq in E; subst; reflexivity. }
      rewrite FE. destruct (slot_eqb s t) eqn:E; auto. destruct (off_dec s) as [[->|[->| ->]]|O]; auto. destruct s; auto; exfalso; apply O; unfold off_by_default; auto.
Qed.
Lemma value_says b s l u v : no_zero l -> says s (rev l) u v (t_sample (m_image (edits l (new_material b)) s) u v * m_factor (edits l (new_material b)) s).
Proof.
  intros N. rewrite image_is, (factor_is b s l N). unfold says, factor_spec. destruct (given_image s (rev l)) as [i|], (given_factor s (rev l)) as [f|]; auto.
  - destruct (off_dec s); ring.
  - cbn. ring.
  - destruct (off_dec s); cbn; [left|right]; split; auto; ring.
Qed.
Lemma bsdf_is b l : m_bsdf (edits l (new_material b)) = given_bsdf b (rev l) /\ m_reqs (edits l (new_material b)) = bsdf_requirements (given_bsdf b (rev l)).
Proof.
  induction l as [|e l IH] using rev_ind; [split; reflexivity|]. rewrite edits_app, rev_app_distr. set (m := edits l (new_material b)) in *. clearbody m. cbn [rev app given_bsdf].
  destruct e as [b'|t i|t f|t]; cbn [apply_edit]; auto; destruct t; exact IH.
Qed.
(* after any edits, opacity, transmission and emission are what the last edits say, and the BSDF answers as if it had been given the albedo, roughness
   and metallic value that the last edits say - although the material computes only those that the BSDF declares.
   Missing: histories with an explicit factor of zero on metallic, transmission or emission (refuted below). *)
Definition as_if (b : bsdf) (h : list edit) (u v vertex_albedo : R) (p p' : params) : Prop :=
  (exists a, says Albedo h u v a /\ p_albedo p' = a * vertex_albedo) /\ says Roughness h u v (p_roughness p') /\ says Metallic h u v (p_metallic p') /\
  (forall wo wi n, eval b wo wi n p = eval b wo wi n p') /\ (forall wo wi n, pdf b wo wi n p = pdf b wo wi n p') /\ (forall wo f u1 u2, sample b wo f p u1 u2 = sample b wo f p' u1 u2).
Lemma needs_only b p p' : (needs_albedo (bsdf_requirements b) = true -> p_albedo p = p_albedo p') -> (needs_roughness (bsdf_requirements b) = true -> p_roughness p = p_roughness p') ->
  (needs_metallic (bsdf_requirements b) = true -> p_metallic p = p_metallic p') ->
  (forall wo wi n, eval b wo wi n p = eval b wo wi n p') /\ (forall wo wi n, pdf b wo wi n p = pdf b wo wi n p') /\ (forall wo f u1 u2, sample b wo f p u1 u2 = sample b wo f p' u1 u2).
Proof.
  intros A R M. assert (EV : forall wo wi n, eval b wo wi n p = eval b wo wi n p').
  { intros wo wi n. destruct b; cbn [bsdf_requirements needs_albedo needs_roughness needs_metallic] in *; unfold eval; rewrite ?A, ?R by auto; auto.
    destruct p as [a r m], p' as [a' r' m']; cbn in *. rewrite A, R, M by auto. reflexivity. }
  split; [exact EV|]. split.
  - intros wo wi n. destruct b; cbn [bsdf_requirements needs_albedo needs_roughness needs_metallic] in *; auto. destruct p as [a r m], p' as [a' r' m']; cbn in *. rewrite A, R, M by auto. reflexivity.
  - intros wo f u1 u2. unfold sample. cbv zeta. rewrite !EV. destruct b; cbn [bsdf_requirements needs_albedo needs_roughness needs_metallic] in *; rewrite ?A by auto; auto. destruct p as [a r m], p' as [a' r' m']; cbn in *. rewrite A, R, M by auto. reflexivity.
Qed.
Theorem C120_last_edits_partial : forall b l u v va, no_zero l ->
  let m := edits l (new_material b) in let h := rev l in
  let '(p, (opacity, transmission, emission)) := evaluate m u v va in
  says Alpha h u v opacity /\ says Transmission h u v transmission /\ says Emissive h u v emission /\ m_bsdf m = given_bsdf b h /\ exists p', as_if (given_bsdf b h) h u v va p p'.
Proof.
  intros b l u v va N m h. unfold evaluate. split; [apply value_says; auto|]. split; [apply value_says; auto|]. split; [apply value_says; auto|]. destruct (bsdf_is b l) as (B1 & B2). fold m in B1, B2. fold h in B1, B2. split; [exact B1|].
  exists (Pa (t_sample (m_image m Albedo) u v * m_factor m Albedo * va) (t_sample (m_image m Roughness) u v * m_factor m Roughness) (t_sample (m_image m Metallic) u v * m_factor m Metallic)).
  split; [eexists; split; [apply (value_says b Albedo l u v N)|reflexivity]|]. split; [apply (value_says b Roughness l u v N)|]. split; [apply (value_says b Metallic l u v N)|].
  rewrite B2. apply needs_only; intros E; cbn [p_albedo p_roughness p_metallic]; rewrite E; reflexivity.
Qed.
Print Assumptions C120_last_edits_partial.
(* an explicit factor of zero is forgotten when an image follows: the parameter is the image's value in one order and zero in the other *)
Theorem C120_zero_factor_refuted : forall b s i u v, off_by_default s -> t_sample i u v <> 0 ->
  let value l := t_sample (m_image (edits l (new_material b)) s) u v * m_factor (edits l (new_material b)) s in
  value [SetFactor s 0; SetImage s i] = t_sample i u v /\ value [SetImage s i; SetFactor s 0] = 0 /\ ~ says s (rev [SetFactor s 0; SetImage s i]) u v (value [SetFactor s 0; SetImage s i]).
Proof.
  intros b s i u v O N value. assert (V1 : value [SetFactor s 0; SetImage s i] = t_sample i u v).
  { unfold value. destruct O as [->|[->| ->]]; cbn; unfold put; cbn; destruct (Req_EM_T 0 0); try lra; cbn; ring. }
  assert (V2 : value [SetImage s i; SetFactor s 0] = 0) by (unfold value; destruct O as [->|[->| ->]]; cbn; unfold put; cbn; ring).
  split; [exact V1|]. split; [exact V2|]. rewrite V1. unfold says. cbn. rewrite slot_eqb_refl. lra.
Qed.
Print Assumptions C120_zero_factor_refuted.
(* a material that does not report alpha is opaque everywhere *)
Theorem C120_opaque : forall b l u v va, m_has_alpha (edits l (new_material b)) = false -> has_alpha_texture (edits l (new_material b)) = false /\ 1 <= fst (fst (snd (evaluate (edits l (new_material b)) u v va))).
Proof.
  intros b l u v va. assert (INV : m_has_alpha (edits l (new_material b)) = false -> m_image (edits l (new_material b)) Alpha = default_image /\ 1 <= m_factor (edits l (new_material b)) Alpha).
  { induction l as [|e l IH] using rev_ind; [cbn; split; auto; lra|]. rewrite edits_app. set (m := edits l (new_material b)) in *. clearbody m. destruct e as [b'|t i|t f|t]; cbn [apply_edit]; auto.
    - destruct t; cbn; auto; try discriminate; intros H; destruct (IH H) as (A & B); destruct (Req_EM_T _ 0); split; auto.
    - destruct t; cbn; auto. destruct (Rltb f 1) eqn:F; [discriminate|]. intros H. destruct (IH H) as (A & B). split; auto. unfold put; cbn. apply Rltb_false in F. lra.
    - destruct t; cbn; auto. intros _. split; auto. unfold put; cbn. lra. }
  intros H. destruct (INV H) as (A & B). unfold has_alpha_texture. rewrite A. split; [reflexivity|]. cbn. rewrite A. cbn. lra.
Qed.
Print Assumptions C120_opaque.
(* the converse fails: after set_alpha_factor(0.5) and set_alpha_factor(1) the material reports alpha and is opaque everywhere *)
Theorem C120_alpha_sticks_refuted : forall b, let m := edits [SetFactor Alpha (1 / 2); SetFactor Alpha 1] (new_material b) in m_has_alpha m = true /\ forall u v va, fst (fst (snd (evaluate m u v va))) = 1.
Proof.
  intros b m. split; [unfold m; cbn; destruct (Rltb (1 / 2) 1) eqn:E; [destruct (Rltb 1 1); auto|apply Rltb_false in E; lra]|]. intros u v va. cbn. unfold put; cbn. ring.
Qed.
Print Assumptions C120_alpha_sticks_refuted.
(* a reset forgets everything before it *)
Theorem C120_reset_alpha : forall b l, m_has_alpha (edits (l ++ [Reset Alpha]) (new_material b)) = false /\ has_alpha_texture (edits (l ++ [Reset Alpha]) (new_material b)) = false.
Proof. intros b l. unfold edits. rewrite fold_left_app. cbn [fold_left apply_edit reset]. split; reflexivity. Qed.
Theorem C120_reset : forall b l s u v, let m := edits (l ++ [Reset s]) (new_material b) in t_sample (m_image m s) u v * m_factor m s = (if off_dec s then 0 else 1).
Proof. intros b l s u v m. unfold m. rewrite edits_app. set (m0 := edits l _). clearbody m0. cbn [apply_edit]. destruct (off_dec s) as [[->|[->| ->]]|O]; cbn; unfold put; cbn; try ring. destruct s; cbn; unfold put; cbn; try ring; exfalso; apply O; unfold off_by_default; auto. Qed.
Print Assumptions C120_reset.
Example C120_case : no_zero [SetImage Metallic default_image; SetBsdf CookTorrance; SetFactor Metallic (1 / 2); SetFactor Alpha 0; Reset Metallic; SetFactor Emissive 3].
Proof. intros s f O I. unfold off_by_default in O. cbn in I. intuition; subst; try discriminate; match goal with H : SetFactor _ _ = SetFactor _ _ |- _ => injection H; intros; subst; try lra; try discriminate end. Qed.
