(* C144: quantum efficiency and colour read-out. *)
From Coq Require Import Reals List Lra Lia Psatz.
From Verif Require Import Vec3 DistortionModel CameraModel SensorModel SensorSpec SensorProofs QeModel.
Import ListNotations.
Open Scope R_scope.

(* a quantum efficiency: a spectrum of fractions *)
Definition fractions (q : list R) : Prop := forall x, In x q -> 0 <= x <= 1.

Lemma ratio_ok_spec x : ratio_ok x = true <-> exists r, x = Fin r /\ 0 <= r <= 1.
Proof.
  destruct x as [r| | |]; try (split; [discriminate|intros (r & E & _); discriminate]). unfold ratio_ok, Rltb. split.
  - intros H. exists r. split; auto. destruct (Rlt_dec r 0), (Rlt_dec 1 r); try discriminate. lra.
  - intros (r' & E & B). injection E as <-. destruct (Rlt_dec r 0), (Rlt_dec 1 r); try (exfalso; lra). reflexivity.
Qed.
(* a spectrum is accepted exactly when it consists of fractions, and is then stored as it is; otherwise the call throws and nothing changes *)
Theorem C144_setter : forall q old,
  ((forall x, In x q -> exists r, x = Fin r /\ 0 <= r <= 1) -> exists r, q = map Fin r /\ set_qe q old = (r, false)) /\
  ((exists x, In x q /\ forall r, x = Fin r -> r < 0 \/ 1 < r) -> set_qe q old = (old, true)).
Proof.
  intros q old. split.
  - intros H. exists (map value q). split.
    + rewrite map_map. clear -H. induction q as [|x q IH]; [reflexivity|]. cbn [map]. destruct (H x (or_introl eq_refl)) as (r & -> & _). cbn [value]. f_equal. apply IH. intros y Hy. apply H. right. exact Hy.
    + unfold set_qe. replace (valid_ratio_fl q) with true; [reflexivity|]. symmetry. apply forallb_forall. intros x Hx. apply ratio_ok_spec. auto.
  - intros (x & Hx & B). unfold set_qe. replace (valid_ratio_fl q) with false; [reflexivity|]. symmetry. destruct (valid_ratio_fl q) eqn:E; [|reflexivity]. exfalso. unfold valid_ratio_fl in E. rewrite forallb_forall in E.
    apply E in Hx. apply ratio_ok_spec in Hx as (r & -> & R). destruct (B r eq_refl); lra.
Qed.
Lemma sum_acc l : forall a, (forall x, In x l -> 0 < x) -> a <= fold_left Rplus l a.
Proof. induction l as [|x l IH]; intros a H; cbn [fold_left]; [lra|]. specialize (IH (a + x) ltac:(intros; apply H; cbn; auto)). pose proof (H x (or_introl eq_refl)). lra. Qed.
Lemma sum_member l : forall a x, 0 <= a -> (forall x, In x l -> 0 < x) -> In x l -> x <= fold_left Rplus l a.
Proof.
  induction l as [|y l IH]; intros a x A H I; [destruct I|]. cbn [fold_left]. pose proof (H y (or_introl eq_refl)). destruct I as [->|I].
  - pose proof (sum_acc l (a + x) ltac:(intros; apply H; cbn; auto)). lra.
  - apply IH; auto; [lra|]. intros; apply H; cbn; auto.
Qed.
(* after any history of calls the quantum efficiency is a spectrum of fractions, as the default is for photons of any energies *)
Theorem C144_history : forall energies l, (forall e, In e energies -> 0 < e) -> fractions (qe_history l (default_qe energies)).
Proof.
  intros energies l He. unfold qe_history. assert (D : fractions (default_qe energies)).
  { intros x Hx. unfold default_qe in Hx. apply in_map_iff in Hx as (e & <- & Ie). pose proof (sum_member energies 0 e (Rle_refl 0) He Ie) as S. pose proof (He e Ie). set (t := fold_left Rplus energies 0) in *.
    assert (0 < t) by lra. assert (0 < / t) by (apply Rinv_0_lt_compat; auto). assert (e * / t <= 1) by (apply (Rmult_le_reg_r t); auto; rewrite Rmult_assoc, Rinv_l; lra). unfold Rdiv. nra. }
  revert D. generalize (default_qe energies). induction l as [|q l IH]; intros s D; [exact D|]. cbn [fold_left]. apply IH. unfold set_qe. destruct (valid_ratio_fl q) eqn:E; [|exact D]. cbn [fst].
  intros x Hx. apply in_map_iff in Hx as (y & <- & Hy). unfold valid_ratio_fl in E. rewrite forallb_forall in E. apply E in Hy. apply ratio_ok_spec in Hy as (r & -> & R). exact R.
Qed.

(* a sensor never frees more electrons than photons arrive, and as many more as the efficiency is higher *)
Theorem C144_electrons : forall dt power energy qe i, fractions qe -> 0 <= dt -> List.length energy = List.length power -> List.length qe = List.length power -> (i < List.length power)%nat ->
  0 <= nth i power 0 -> 0 < nth i energy 0 ->
  let photons := nth i power 0 * dt / nth i energy 0 in let e := nth i (channel_electrons dt power energy qe) 0 in
  0 <= e <= photons /\ e = photons * nth i qe 0.
Proof.
  intros dt power energy qe i Q Hdt L1 L2 Hi Hp Hen. cbv zeta. unfold channel_electrons.
  assert (E : nth i (map (fun t => fst (fst t) * dt / snd (fst t) * snd t) (combine (combine power energy) qe)) 0 = nth i power 0 * dt / nth i energy 0 * nth i qe 0).
  { rewrite (nth_indep _ 0 ((fun t : R * R * R => fst (fst t) * dt / snd (fst t) * snd t) (0, 0, 0))) by (rewrite map_length, !combine_length, L1, L2, !Nat.min_id; exact Hi).
    rewrite (map_nth (fun t : R * R * R => fst (fst t) * dt / snd (fst t) * snd t)), !combine_nth; cbn [fst snd]; auto. rewrite combine_length, L1, L2, Nat.min_id. reflexivity. }
  rewrite E. split; [|reflexivity]. assert (P : 0 <= nth i power 0 * dt / nth i energy 0) by (apply Rmult_le_pos; [nra|left; apply Rinv_0_lt_compat; auto]).
  assert (B : 0 <= nth i qe 0 <= 1) by (apply Q, nth_In; lia). revert P B. generalize (nth i power 0 * dt / nth i energy 0) (nth i qe 0). intros x y P B. split; nra.
Qed.

(* what one channel of one pixel becomes: draws number 2k and 2k+1 of the generator, k counting the channels read so far *)
Section Props.
Context {rng : Type}.
Variable gen : R -> rng -> R * rng.
Lemma adc_range s e d shot rn : valid_sensor s -> 0 <= noise_and_adc s e d shot rn <= 1.
Proof.
  intros V. assert (H : In (noise_and_adc s e d shot rn) (fst (readout (rng := R) (fun sd st => (st, rn)) s d [e] shot)) \/ simulate_noise s = false).
  { destruct (simulate_noise s) eqn:N; [left|right; reflexivity]. cbn [readout]. rewrite N. cbn. auto. }
  destruct H as [H|H]; [eapply readout_range; eauto|]. assert (Q : noise_and_adc s e d shot rn = noise_and_adc s e d 0 0) by (unfold noise_and_adc; rewrite H; reflexivity). rewrite Q.
  apply (readout_range (fun _ (st : unit) => (0, st)) s d V [e] tt). cbn [readout]. rewrite H. cbn. auto.
Qed.
Lemma channels_length s d l : forall st, List.length (fst (channels gen s d l st)) = List.length l.
Proof. induction l as [|e l IH]; intros st; [reflexivity|]. cbn [channels]. destruct (convert gen s d e st) as [v st1]. specialize (IH st1). destruct (channels gen s d l st1). cbn in *. lia. Qed.
Lemma channels_range s d l : valid_sensor s -> forall st x, In x (fst (channels gen s d l st)) -> 0 <= x <= 1.
Proof.
  intros V. induction l as [|e l IH]; intros st x H; [destruct H|]. cbn [channels] in H. destruct (convert gen s d e st) as [v st1] eqn:C. specialize (IH st1 x). destruct (channels gen s d l st1). cbn in *.
  destruct H as [<-|H]; auto. unfold convert in C. destruct (if simulate_noise s then gen (sqrt (e + d)) st else (0, st)) as [a b]. destruct (if simulate_noise s then gen (read_noise s) b else (0, b)) as [c f]. injection C as <- _. apply adc_range; auto.
Qed.
Lemma channel_electrons_length dt p energy qe : List.length energy = List.length p -> List.length qe = List.length p -> List.length (channel_electrons dt p energy qe) = List.length p.
Proof. intros L1 L2. unfold channel_electrons. rewrite map_length, !combine_length, L1, L2, !Nat.min_id. reflexivity. Qed.
(* every pixel of a colour image has as many channels as it should, each in [0, 1], whatever the noise *)
Theorem C144_range : forall s dt energy qe frame st, valid_sensor s -> List.length qe = List.length energy -> (forall p, In p frame -> List.length p = List.length energy) ->
  List.length (fst (readout_rgb gen s dt energy qe frame st)) = List.length frame /\
  forall p, In p (fst (readout_rgb gen s dt energy qe frame st)) -> List.length p = List.length energy /\ forall x, In x p -> 0 <= x <= 1.
Proof.
  intros s dt energy qe frame st V LQ. revert st. induction frame as [|p frame IH]; intros st LP; [split; [reflexivity|intros p []]|]. cbn [readout_rgb].
  pose proof (channels_length s (dark_electrons s dt) (channel_electrons dt p energy qe) st) as CL. pose proof (channels_range s (dark_electrons s dt) (channel_electrons dt p energy qe) V st) as CR.
  destruct (channels gen s (dark_electrons s dt) (channel_electrons dt p energy qe) st) as [px st1]. specialize (IH st1 ltac:(intros; apply LP; cbn; auto)). destruct (readout_rgb gen s dt energy qe frame st1) as [out st2]. cbn [fst] in *.
  destruct IH as [I1 I2]. split; [cbn; lia|]. intros q [<-|H]; [|auto]. split; [|exact CR]. rewrite CL. assert (List.length p = List.length energy) by (apply LP; cbn; auto). rewrite channel_electrons_length; lia.
Qed.
End Props.

(* colours do not mix: a channel of the output depends on that channel's light only. The noise may be anything as long as the random numbers drawn next do not depend on the standard
   deviations asked for before (as for a normal distribution scaled by it). [same c a b]: the frames a and b have the same light in channel c *)
Definition same (c : nat) (a b : list (list R)) : Prop := Forall2 (fun p q => nth c p 0 = nth c q 0 /\ List.length p = List.length q) a b.
Theorem C144_colours_apart : forall (rng : Type) (gen : R -> rng -> R * rng) s dt energy qe c a b st, (forall sd sd' st, snd (gen sd st) = snd (gen sd' st)) ->
  (c < List.length energy)%nat -> List.length qe = List.length energy -> (forall p, In p a -> List.length p = List.length energy) -> same c a b ->
  map (fun p => nth c p 0) (fst (readout_rgb gen s dt energy qe a st)) = map (fun p => nth c p 0) (fst (readout_rgb gen s dt energy qe b st)).
Proof.
  intros rng gen s dt energy qe c a b st G Hc LQ LA S.
  assert (CV : forall d e e' st, snd (convert gen s d e st) = snd (convert gen s d e' st)).
  { intros d e e' st0. unfold convert. destruct (simulate_noise s); [|reflexivity]. pose proof (G (sqrt (e + d)) (sqrt (e' + d)) st0) as E. destruct (gen (sqrt (e + d)) st0) as [x1 t1], (gen (sqrt (e' + d)) st0) as [x2 t2]. cbn in E. subst t2. destruct (gen (read_noise s) t1). reflexivity. }
  assert (CH : forall d l l' st, List.length l = List.length l' -> snd (channels gen s d l st) = snd (channels gen s d l' st) /\ forall i, nth i l 0 = nth i l' 0 -> nth i (fst (channels gen s d l st)) 0 = nth i (fst (channels gen s d l' st)) 0).
  { intros d. induction l as [|e l IH]; intros [|e' l'] st0 L; try discriminate; [split; auto|]. cbn [channels]. pose proof (CV d e e' st0) as E.
    assert (SAME : e = e' -> fst (convert gen s d e st0) = fst (convert gen s d e' st0)) by (intros ->; reflexivity).
    destruct (convert gen s d e st0) as [v1 t1], (convert gen s d e' st0) as [v2 t2]. cbn [snd fst] in *. subst t2. destruct (IH l' t1 ltac:(cbn in L; lia)) as [I1 I2].
    destruct (channels gen s d l t1) as [o1 u1], (channels gen s d l' t1) as [o2 u2]. cbn [snd fst] in *. split; auto. intros [|i] H; cbn [nth] in *; auto. }
  revert st LA. induction S as [|p q a b [E L] S IH]; intros st LA; [reflexivity|]. cbn [readout_rgb].
  assert (LP : List.length p = List.length energy) by (apply LA; cbn; auto).
  assert (CEn : forall p, List.length p = List.length energy -> nth c (channel_electrons dt p energy qe) 0 = nth c p 0 * dt / nth c energy 0 * nth c qe 0).
  { intros p' LP'. unfold channel_electrons. rewrite (nth_indep _ 0 ((fun t : R * R * R => fst (fst t) * dt / snd (fst t) * snd t) (0, 0, 0))) by (rewrite map_length, !combine_length, LP', LQ, !Nat.min_id; exact Hc).
    rewrite (map_nth (fun t : R * R * R => fst (fst t) * dt / snd (fst t) * snd t)), !combine_nth; cbn [fst snd]; auto. rewrite combine_length, LP', LQ, Nat.min_id. reflexivity. }
  destruct (CH (dark_electrons s dt) (channel_electrons dt p energy qe) (channel_electrons dt q energy qe) st) as [C1 C2]; [rewrite !channel_electrons_length; lia|].
  specialize (C2 c ltac:(rewrite !CEn by lia; rewrite E; reflexivity)).
  destruct (channels gen s (dark_electrons s dt) (channel_electrons dt p energy qe) st) as [o1 u1], (channels gen s (dark_electrons s dt) (channel_electrons dt q energy qe) st) as [o2 u2]. cbn [fst snd] in *. subst u2.
  specialize (IH u1 ltac:(intros; apply LA; cbn; auto)). destruct (readout_rgb gen s dt energy qe a u1), (readout_rgb gen s dt energy qe b u1). cbn [fst map] in *. f_equal; auto.
Qed.
Example C144_case : fractions [1 / 2; 1; 0] /\ same 1 [[1; 2; 3]] [[5; 2; 7]].
Proof. split; [intros x [<-|[<-|[<-|[]]]]; lra|]. constructor; [|constructor]. split; reflexivity. Qed.
Print Assumptions C144_setter. Print Assumptions C144_history. Print Assumptions C144_electrons. Print Assumptions C144_range. Print Assumptions C144_colours_apart.
