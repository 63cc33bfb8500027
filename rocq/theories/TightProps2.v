(* Consequences of C26, C65, C120, C130, C147, C148 and C154 in elementary terms: distances and stopping in numbers, a material nobody
   touched, arrays handed out, what a FITS file says about itself, and Python objects that never merge. *)
From Coq Require Import Reals Lra Lia List String ZArith.
From Verif Require Import Common Vec3 RenderModel RenderSpec RenderProofs RenderProps MaterialModel MaterialProps PyModel PyProps.
Import ListNotations.
Open Scope R_scope.

(** C26: neighbouring sub-samples of a trail are at most 3/4 of a pixel apart in the plane *)
Definition near (p q : R * R) : Prop := (fst q - fst p) * (fst q - fst p) + (snd q - snd p) * (snd q - snd p) <= (3 / 4) * (3 / 4).
Fixpoint neighbours_near (l : list (R * R)) : Prop := match l with a :: ((b :: _) as r) => near a b /\ neighbours_near r | _ => True end.
Lemma within_near x y : sqrt (x * x + y * y) <= 3 / 4 -> x * x + y * y <= (3 / 4) * (3 / 4).
Proof.
  intros H. assert (P : 0 <= x * x + y * y) by (pose proof (Rle_0_sqr x); pose proof (Rle_0_sqr y); unfold Rsqr in *; lra).
  pose proof (sqrt_sqrt _ P) as Q. pose proof (sqrt_pos (x * x + y * y)) as Z. set (s := sqrt (x * x + y * y)) in *. rewrite <- Q. apply Rmult_le_compat; auto.
Qed.
Theorem C26_spacing : forall pix N i, fst i < snd i -> any_far pix (trail_params pix N i) = false -> neighbours_near (map pix (trail_params pix N i)).
Proof.
  intros pix N i H A. destruct (C26_trail_samples pix N i H) as (_ & _ & _ & W). specialize (W A). clear A. induction (trail_params pix N i) as [|a [|b r] IH]; cbn; auto.
  destruct W as (W1 & W2). split; [|apply IH; exact W2]. unfold near. apply within_near. exact W1.
Qed.
Print Assumptions C26_spacing.
(* and a step is halved exactly when its ends are further apart *)
Theorem C26_halved : forall pix a b, pass pix [a; b] = [a; (a + b) / 2; b] /\ ~ near (pix a) (pix b) \/ pass pix [a; b] = [a; b] /\ near (pix a) (pix b).
Proof.
  intros pix a b. cbn. unfold pdist, near, max_pixel_step. set (x := (fst (pix b) - fst (pix a)) * _ + _). assert (P : 0 <= x) by (unfold x; apply Rplus_le_le_0_compat; apply Rle_0_sqr). pose proof (sqrt_sqrt x P). pose proof (sqrt_pos x).
  destruct (Rltb (3 / 4) (sqrt x)) eqn:E; rb; [left|right]; split; auto; nra.
Qed.
Print Assumptions C26_halved.

(** C65: with dynamic sampling a pixel stops early when the variance of its samples, divided by their mean plus 0.0001, is below the threshold *)
Theorem C65_early_exit : forall min_spp threshold xs, let a := sample_loop true min_spp (stop_rule threshold) 0 xs acc0 in
  exists pre post, xs = (pre ++ post)%list /\ (accepted pre <> [] -> averaged a = Some (average (accepted pre))) /\
    (post <> [] -> accepted pre <> [] -> sq_dev (accepted pre) / INR (List.length (accepted pre)) / (average (accepted pre) + 0.0001) < threshold).
Proof.
  intros ms th xs a. destruct (C65_pixel_statistics true ms th xs) as (pre & post & E & T & S & W). fold a in T, S, W. exists pre, post. split; auto. split; [intros N; apply W; exact N|]. intros P N.
  destruct (S P) as (_ & _ & R). destruct (W N) as (W1 & W2 & _). unfold stop_rule in R. rb. rewrite W1, W2, T in R. replace 0.0001 with (1 / 10000) by lra. unfold Rdiv at 2. rewrite <- (Rmult_1_l (/ INR _)). exact R.
Qed.
Print Assumptions C65_early_exit.

(** C120: a material reports alpha exactly when, since its alpha was last reset (or it was made), an alpha image or an alpha factor below one was given *)
Definition gives_alpha (e : edit) : Prop := (exists i, e = SetImage Alpha i) \/ (exists f, e = SetFactor Alpha f /\ f < 1).
Theorem C120_reports_alpha : forall b l, m_has_alpha (edits l (new_material b)) = true <-> exists before e after, l = (before ++ e :: after)%list /\ gives_alpha e /\ ~ In (Reset Alpha) after.
Proof.
  intros b l. induction l as [|e l IH] using rev_ind.
  - cbn. split; [discriminate|]. intros (p & e & q & E & _). destruct p; discriminate.
  - rewrite edits_app. assert (KEEP : e <> Reset Alpha -> ~ gives_alpha e -> (exists p e0 q, l = (p ++ e0 :: q)%list /\ gives_alpha e0 /\ ~ In (Reset Alpha) q) <-> exists p e0 q, (l ++ [e])%list = (p ++ e0 :: q)%list /\ gives_alpha e0 /\ ~ In (Reset Alpha) q).
    { intros NR NG. split; intros (p & e0 & q & E & G & N).
      - exists p, e0, (q ++ [e])%list. rewrite E, <- app_assoc. repeat split; auto. intros I. apply in_app_or in I as [I|[I|[]]]; congruence.
      - destruct q as [|x q0] using rev_ind; [apply app_inj_tail in E as [_ ->]; tauto|]. clear IHq0. exists p, e0, q0. change (p ++ e0 :: q0 ++ [x])%list with (p ++ (e0 :: q0) ++ [x])%list in E. rewrite app_assoc in E. apply app_inj_tail in E as [E _]. repeat split; auto. intros I. apply N, in_or_app. auto. }
    assert (SET : gives_alpha e -> exists p e0 q, (l ++ [e])%list = (p ++ e0 :: q)%list /\ gives_alpha e0 /\ ~ In (Reset Alpha) q) by (intros G; exists l, e, []; auto).
    set (m := edits l (new_material b)) in *. clearbody m. unfold gives_alpha in KEEP, SET.
    destruct e as [b'|t i|t f|t]; cbn [apply_edit].
    + rewrite <- KEEP; [exact IH|discriminate|]. intros [(? & E)|(? & E & _)]; discriminate.
    + destruct t; cbn; try (destruct (Req_EM_T _ 0); cbn); try (rewrite <- KEEP; [exact IH|discriminate|intros [(? & E)|(? & E & _)]; discriminate]). split; auto. intros _. apply SET. eauto.
    + destruct t; cbn; try (rewrite <- KEEP; [exact IH|discriminate|intros [(? & E)|(? & E & _)]; discriminate]).
      destruct (Rltb f 1) eqn:F; rb; [split; auto; intros _; apply SET; right; eauto|]. rewrite <- KEEP; [exact IH|discriminate|]. intros [(? & E)|(? & E & L)]; [discriminate|]. injection E as <-. lra.
    + destruct t; cbn; try (rewrite <- KEEP; [exact IH|discriminate|intros [(? & E)|(? & E & _)]; discriminate]).
      split; [discriminate|]. intros (p & e0 & q & E & G & N). exfalso. destruct q as [|x q0] using rev_ind; [apply app_inj_tail in E as [_ <-]; destruct G as [(? & E)|(? & E & _)]; discriminate|].
      change (p ++ e0 :: q0 ++ [x])%list with (p ++ (e0 :: q0) ++ [x])%list in E. rewrite app_assoc in E. apply app_inj_tail in E as [_ <-]. apply N, in_or_app. right. left. reflexivity.
Qed.
Print Assumptions C120_reports_alpha.
Example C120_reports_ex : forall b, m_has_alpha (edits [SetFactor Alpha (1 / 2); Reset Alpha] (new_material b)) = false. Proof. reflexivity. Qed.

(** C130: what the bindings hand out is a contiguous array of the element type it claims *)
Theorem C130_handed_out : forall (V : Type) (v : list V) (mat : Z -> Z -> option V), contiguous (vector_to_numpy v) = true /\ a_native (vector_to_numpy v) = true /\ contiguous (matrix_to_numpy mat) = true /\ a_native (matrix_to_numpy mat) = true.
Proof.
  intros V v mat. repeat split; try reflexivity. unfold contiguous, vector_to_numpy, fresh. cbn [a_shape a_size a_strides row_major dense]. apply orb_true_iff; right. destruct (Z.of_nat (List.length v) =? 1)%Z; reflexivity.
Qed.
Print Assumptions C130_handed_out.
