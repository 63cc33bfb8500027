(* C141: depth and normal maps. *)
From Verif Require Import Common Vec3 DistortionModel FrustumModel CameraModel ColorMapModel.
Import ListNotations.
Open Scope R_scope.

(* the depths of an image that is not all background *)
Definition nearest (l : list fl) (lo : R) : Prop := In (Fin lo) l /\ forall x, In (Fin x) l -> lo <= x.
Definition farthest (l : list fl) (hi : R) : Prop := In (Fin hi) l /\ forall x, In (Fin x) l -> x <= hi.

Definition inv (seen : list fl) (s : fl * fl) : Prop :=
  (match fst s with PInf => forall x, ~ In (Fin x) seen | Fin lo => nearest seen lo | _ => False end) /\
  (exists hi, snd s = Fin hi /\ 0 <= hi /\ (forall x, In (Fin x) seen -> x <= hi) /\ (hi = 0 \/ In (Fin hi) seen)).
Lemma Rltb_spec' a b : reflect (a < b) (Rltb a b).
Proof. unfold Rltb. destruct (Rlt_dec a b); constructor; auto. Qed.
Lemma scan_inv l : inv l (scan l).
Proof.
  unfold scan. assert (G : forall l seen s, inv seen s -> inv (seen ++ l) (fold_left scan1 l s)).
  { clear l. induction l as [|d l IH]; intros seen s I; [rewrite app_nil_r; exact I|]. cbn [fold_left]. replace (seen ++ d :: l) with ((seen ++ [d]) ++ l) by (rewrite <- app_assoc; reflexivity). apply IH. clear IH.
    destruct s as [lo hi]. destruct I as [I1 (h & I2 & I3 & I4 & I5)]. cbn [fst snd] in *. subst hi. unfold scan1. cbn [fst snd].
    assert (M : forall x, In (Fin x) (seen ++ [d]) <-> In (Fin x) seen \/ Fin x = d) by (intros x; rewrite in_app_iff; cbn; intuition).
    destruct d as [x| | |]; cbn [is_inf].
    - split; cbn [fst snd].
      + destruct lo as [a| | |]; cbn [flt]; try contradiction.
        * destruct I1 as [J1 J2]. destruct (Rltb_spec' x a).
          { split; [apply M; auto|]. intros y Y. apply M in Y as [Y|Y]; [apply J2 in Y; lra|injection Y as ->; lra]. }
          { split; [apply M; auto|]. intros y Y. apply M in Y as [Y|Y]; [apply J2 in Y; lra|injection Y as ->; lra]. }
        * split; [apply M; auto|]. intros y Y. apply M in Y as [Y|Y]; [destruct (I1 y Y)|injection Y as ->; lra].
      + cbn [flt]. destruct (Rltb_spec' h x).
        * exists x. split; auto. split; [lra|]. split; [|right; apply M; auto]. intros y Y. apply M in Y as [Y|Y]; [apply I4 in Y; lra|injection Y as ->; lra].
        * exists h. split; auto. split; auto. split; [|destruct I5; [auto|right; apply M; auto]]. intros y Y. apply M in Y as [Y|Y]; [apply I4 in Y; lra|injection Y as ->; lra].
    - split; cbn [fst snd].
      + destruct lo; auto.
        * destruct I1 as [J1 J2]. split; [apply M; auto|]. intros y Y. apply M in Y as [Y|Y]; [auto|discriminate].
        * intros y Y. apply M in Y as [Y|Y]; [eapply I1; eauto|discriminate].
      + exists h. split; auto. split; auto. split; [|destruct I5; [auto|right; apply M; auto]]. intros y Y. apply M in Y as [Y|Y]; [auto|discriminate].
    - split; cbn [fst snd].
      + destruct lo; auto.
        * destruct I1 as [J1 J2]. split; [apply M; auto|]. intros y Y. apply M in Y as [Y|Y]; [auto|discriminate].
        * intros y Y. apply M in Y as [Y|Y]; [eapply I1; eauto|discriminate].
      + exists h. split; auto. split; auto. split; [|destruct I5; [auto|right; apply M; auto]]. intros y Y. apply M in Y as [Y|Y]; [auto|discriminate].
    - assert (E : flt NaN lo = false) by (destruct lo; reflexivity). rewrite E. cbn [flt]. split; cbn [fst snd].
      + destruct lo; auto.
        * destruct I1 as [J1 J2]. split; [apply M; auto|]. intros y Y. apply M in Y as [Y|Y]; [auto|discriminate].
        * intros y Y. apply M in Y as [Y|Y]; [eapply I1; eauto|discriminate].
      + exists h. split; auto. split; auto. split; [|destruct I5; [auto|right; apply M; auto]]. intros y Y. apply M in Y as [Y|Y]; [auto|discriminate]. }
  apply (G l []). split; cbn [fst snd]. { intros x []. } exists 0. split; auto. split; [lra|]. split; [intros x []|auto].
Qed.

Lemma scan_ends l lo hi : (forall x, In (Fin x) l -> 0 <= x) -> nearest l lo -> farthest l hi -> scan l = (Fin lo, Fin hi).
Proof.
  intros P [N1 N2] [F1 F2]. destruct (scan_inv l) as [I (h & E & H0 & H1 & H2)]. destruct (scan l) as [a b]. cbn [fst snd] in *. subst b. f_equal.
  - destruct a; try contradiction; [|destruct (I lo N1)]. destruct I as [J1 J2]. f_equal. apply Rle_antisym; auto.
  - f_equal. apply Rle_antisym; auto. destruct H2 as [ -> |H2]; auto.
Qed.

(* C141: in an image of non-negative depths, at least two of them different, the map has a grey value for every pixel: 1 for the background, 0 for the nearest,
   0.8 for the farthest pixel, everything between in [0, 0.8], linear in the depth and so in the same order; an undefined depth stays undefined and changes no
   other pixel. *)
Theorem C141_depth : forall l lo hi, (forall x, In (Fin x) l -> 0 <= x) -> nearest l lo -> farthest l hi -> lo < hi ->
  List.length (depth_map l) = List.length l /\
  forall i d, nth_error l i = Some d -> exists g, nth_error (depth_map l) i = Some g /\
    match d with
    | PInf | NInf => g = Fin 1
    | NaN => g = NaN
    | Fin x => exists y, g = Fin y /\ 0 <= y <= 8 / 10 /\ (x - lo) * (8 / 10) = y * (hi - lo) /\ (y = 0 <-> x = lo) /\ (y = 8 / 10 <-> x = hi)
    end.
Proof.
  intros l lo hi P N F L. unfold depth_map. split; [apply map_length|]. intros i d E. eexists. split; [rewrite nth_error_map, E; reflexivity|].
  destruct d as [x| | |]; cbn [is_inf]; auto. rewrite (scan_ends l lo hi P N F). unfold shade. cbn [fst snd]. destruct (Req_EM_T (hi - lo) 0); [lra|].
  eexists. split; [reflexivity|]. apply nth_error_In in E. destruct N as [_ N]. destruct F as [_ F]. specialize (N x E). specialize (F x E).
  set (y := 8 / 10 * (x - lo) / (hi - lo)). assert (Y : y * (hi - lo) = 8 / 10 * (x - lo)) by (unfold y; field; lra). clearbody y.
  assert (0 <= y) by nra. assert (y <= 8 / 10) by nra. split; [lra|]. split; [lra|]. split; split; intros; nra.
Qed.
(* closer is darker *)
Theorem C141_order : forall l lo hi, (forall x, In (Fin x) l -> 0 <= x) -> nearest l lo -> farthest l hi -> lo < hi ->
  forall i j x y, nth_error l i = Some (Fin x) -> nth_error l j = Some (Fin y) -> exists u v, nth_error (depth_map l) i = Some (Fin u) /\ nth_error (depth_map l) j = Some (Fin v) /\ (x < y <-> u < v).
Proof.
  intros l lo hi P N F L i j x y I J. destruct (C141_depth l lo hi P N F L) as [_ D].
  destruct (D i _ I) as (g & E & u & -> & _ & U & _). destruct (D j _ J) as (g' & E' & v & -> & _ & V & _). exists u, v. split; auto. split; auto. split; intros; nra.
Qed.
(* Refuted: "every depth image can be mapped". If all objects are at one depth - a flat wall seen head on - every object pixel is NaN. *)
Theorem C141_refuted_flat : forall l d, 0 <= d -> (exists i, nth_error l i = Some (Fin d)) -> (forall x, In (Fin x) l -> x = d) ->
  forall i, nth_error l i = Some (Fin d) -> nth_error (depth_map l) i = Some NaN.
Proof.
  intros l d Hd [k K] A i E. apply nth_error_In in K. unfold depth_map. rewrite nth_error_map, E. cbn [option_map is_inf]. f_equal.
  rewrite (scan_ends l d d).
  - unfold shade. cbn [fst snd]. destruct (Req_EM_T (d - d) 0); auto. lra.
  - intros x X. apply A in X. lra.
  - split; auto. intros x X. apply A in X. lra.
  - split; auto. intros x X. apply A in X. lra.
Qed.
(* An image of background only is white. *)
Theorem C141_background : forall l, (forall d, In d l -> is_inf d = true) -> depth_map l = repeat (Fin 1) (List.length l).
Proof.
  intros l H. unfold depth_map. set (s := scan l). clearbody s. induction l as [|d l IH]; auto. cbn. rewrite (H d (or_introl eq_refl)). f_equal. apply IH. intros. apply H. right. auto.
Qed.

(* The normal map: unit normals give colours in [0, 1], different normals different colours, and a normal can be read back from its colour. *)
Theorem C141_normals : forall l, List.length (normal_map l) = List.length l /\
  forall i n, nth_error l i = Some n -> exists r g b, nth_error (normal_map l) i = Some (r, g, b) /\ n = V3 (2 * r - 1) (2 * g - 1) (2 * b - 1) /\
    (dot n n <= 1 -> 0 <= r <= 1 /\ 0 <= g <= 1 /\ 0 <= b <= 1).
Proof.
  intros l. unfold normal_map. split; [apply map_length|]. intros i n E. eexists _, _, _. split; [rewrite nth_error_map, E; reflexivity|]. destruct n as [x y z]. cbn [vx vy vz]. split; [f_equal; field|].
  unfold dot. cbn [vx vy vz]. intros H. repeat split; nra.
Qed.
(* rgb_to_spectral converts pixel by pixel, and leaves an RGB image alone. *)
Theorem C141_rgb : forall (A B : Type) (f : A -> B) (l : list A), rgb_to_spectral (Some (eq_refl A)) (fun x => x) l = l /\
  forall i, nth_error (rgb_to_spectral None f l) i = option_map f (nth_error l i).
Proof. intros. split; [reflexivity|]. intros i. apply nth_error_map. Qed.
(* a case: background, two walls, a NaN *)
Example C141_case : nearest [PInf; Fin 2; Fin 4; NaN] 2 /\ farthest [PInf; Fin 2; Fin 4; NaN] 4 /\ depth_map [PInf; Fin 2; Fin 4; NaN] = [Fin 1; Fin (8 / 10 * (2 - 2) / (4 - 2)); Fin (8 / 10 * (4 - 2) / (4 - 2)); NaN].
Proof.
  assert (N : nearest [PInf; Fin 2; Fin 4; NaN] 2). { split; [cbn; auto|]. intros x X. cbn in X. destruct X as [X|[X|[X|[X|[] ]]]]; try discriminate; injection X as <-; lra. }
  assert (F : farthest [PInf; Fin 2; Fin 4; NaN] 4). { split; [cbn; auto|]. intros x X. cbn in X. destruct X as [X|[X|[X|[X|[] ]]]]; try discriminate; injection X as <-; lra. }
  split; auto. split; auto. unfold depth_map. rewrite (scan_ends _ 2 4); auto.
  - cbn [map is_inf]. unfold shade. cbn [fst snd]. destruct (Req_EM_T (4 - 2) 0); [lra|]. reflexivity.
  - intros x X. cbn in X. destruct X as [X|[X|[X|[X|[] ]]]]; try discriminate; injection X as <-; lra.
Qed.
Print Assumptions C141_depth.
Print Assumptions C141_order.
Print Assumptions C141_refuted_flat.
Print Assumptions C141_background.
Print Assumptions C141_normals.
Print Assumptions C141_rgb.
