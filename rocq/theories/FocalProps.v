(* C117: the focal length in pixels is the focal length over the pixel pitch, after any accepted history of configuration calls. *)
From Verif Require Import Common Vec3 DistortionModel FrustumModel CameraModel CameraSpec CameraProofs CameraProps.
From Coq Require Import Reals Lra ZArith List Lia. Import ListNotations.
Open Scope R_scope.

(** Specification *)
(* what the getters report: focal length, pixel pitch and intrinsics describe one camera *)
Definition one_camera (c : camera) : Prop :=
  exists f p q, focal c = Fin f /\ pitch_x c = Fin p /\ pitch_y c = Fin q /\ 0 < p /\ 0 < q /\ fx c = Fin (f / p) /\ fy c = Fin (f / q).
(* a history in which set_sensor is not called while the intrinsics come from set_intrinsics; a SensorModel has a positive pitch *)
Fixpoint no_sensor_over_intrinsics (explicit : bool) (l : list call) : Prop :=
  match l with
  | [] => True
  | SetIntrinsics _ _ _ _ _ _ _ :: r => no_sensor_over_intrinsics true r
  | (SetFocalLength _ | ConfigurePitch _ _ _ _ _ _ | ConfigureSize _ _ _ _ _ _) :: r => no_sensor_over_intrinsics false r
  | SetSensor _ _ a b :: r => explicit = false /\ 0 < a /\ 0 < b /\ no_sensor_over_intrinsics explicit r
  | (SetDistortion _ | DeleteDistortion | UseBlender _) :: r => no_sensor_over_intrinsics explicit r
  end.

(** Proofs *)
Lemma not_bad a : bad_length a = false -> exists r, a = Fin r /\ 0 < r.
Proof. unfold bad_length. destruct a; cbn; try discriminate. rewrite !Bool.orb_false_r. intros H. apply Rleb_false in H. eauto. Qed.
Lemma pitch_pos a b c : snd (sensor_set_pitch a b c) = false -> exists p q, a = Fin p /\ b = Fin q /\ 0 < p /\ 0 < q.
Proof.
  unfold sensor_set_pitch. destruct (bad_length a) eqn:A; [discriminate|]. destruct (bad_length b) eqn:B; [discriminate|]. intros _.
  apply not_bad in A as (p & -> & P). apply not_bad in B as (q & -> & Q). eauto 8.
Qed.
Lemma size_pos a b c : snd (sensor_set_size a b c) = false -> exists p q, fdiv a (Fin (IZR (res_x c))) = Fin p /\ fdiv b (Fin (IZR (res_y c))) = Fin q /\ 0 < p /\ 0 < q.
Proof. unfold sensor_set_size. destruct (_ || _)%bool; [discriminate|]. apply pitch_pos. Qed.
Section Run.
Variable sample : image (option vec3) -> R -> R -> option vec3.
(* the sensor and the focal length are finite *)
Definition metric (c : camera) : Prop := exists f p q, focal c = Fin f /\ pitch_x c = Fin p /\ pitch_y c = Fin q /\ 0 < p /\ 0 < q.
Lemma one_metric c : one_camera c -> metric c.
Proof. intros (f & p & q & H). exists f, p, q. intuition. Qed.
Lemma compute_one c : metric c -> is_explicit c = false -> one_camera (compute_intrinsics sample c) /\ is_explicit (compute_intrinsics sample c) = false.
Proof.
  intros (f & p & q & F & P & Q & P0 & Q0) E. unfold compute_intrinsics. cbv zeta. cbn [is_explicit set_rxy]. rewrite E. split; [|reflexivity].
  exists f, p, q. cbn [set_solid set_frustum set_intr set_rxy focal pitch_x pitch_y fx fy]. rewrite F, P, Q. unfold fdiv. destruct (Req_EM_T p 0); [lra|]. destruct (Req_EM_T q 0); [lra|]. auto 10.
Qed.
Lemma compute_explicit c : one_camera c -> is_explicit c = true -> one_camera (compute_intrinsics sample c) /\ is_explicit (compute_intrinsics sample c) = true.
Proof.
  intros (f & p & q & H) E. unfold compute_intrinsics. cbv zeta. cbn [is_explicit set_rxy]. rewrite E. split; [|exact E].
  exists f, p, q. exact H.
Qed.
Lemma finish_one w h u v c : metric c -> is_explicit c = false -> snd (finish_configure sample w h u v c) = false ->
  one_camera (fst (finish_configure sample w h u v c)) /\ is_explicit (fst (finish_configure sample w h u v c)) = false.
Proof.
  intros M E. unfold finish_configure. cbv zeta. destruct (_ || _)%bool; [discriminate|]. intros _. cbn [fst]. apply compute_one; [|exact E].
  destruct M as (f & p & q & H). exists f, p, q. exact H.
Qed.
Lemma intrinsics_one a b u v w h anchor c : snd (set_intrinsics sample a b u v w h anchor c) = false ->
  let c' := fst (set_intrinsics sample a b u v w h anchor c) in
  one_camera c' /\ is_explicit c' = true /\ fx c' = a /\ fy c' = b /\ cx c' = u /\ cy c' = v /\ focal c' = anchor /\ anchor <> Fin 0.
Proof.
  unfold set_intrinsics. intros H. apply thn_ok in H as H1. destruct H1 as (Hr & E). rewrite E in H |- *.
  apply res_ok in Hr. destruct Hr as (Er & W0 & H0). rewrite Er in *. apply thn_ok in H as H2. destruct H2 as (Hq & E2). rewrite E2 in H |- *.
  apply pitch_pos in Hq as PP. destruct PP as (p & q & P & Q & P0 & Q0). apply pitch_ok in Hq. rewrite Hq in *. rewrite P, Q in *.
  apply thn_ok in H as H3. destruct H3 as (Hs & E3). rewrite E3. apply size_pos in Hs as SS. destruct SS as (p' & q' & P' & Q' & P0' & Q0'). apply size_ok in Hs. rewrite Hs. rewrite P', Q' in *. clear E E2 E3 Hq Hs H Er.
  cbn [set_pitch set_focal set_res set_intr focal fx fy res_x res_y fmulz] in P, Q, P', Q'. cbv zeta. cbn [fst].
  assert (PE : p' = p /\ q' = q). { unfold fdiv in P', Q'. destruct (Req_EM_T (IZR w) 0); [discriminate|]. destruct (Req_EM_T (IZR h) 0); [discriminate|]. injection P' as <-. injection Q' as <-. split; field; auto. }
  destruct PE as (-> & ->). clear P' Q'.
  destruct anchor as [F| | |]; destruct a as [A| | |]; unfold fdiv in P; try (destruct (Rltb 0 A); [discriminate|destruct (Rltb A 0); discriminate]); try discriminate; try (injection P as <-; lra).
  destruct b as [B| | |]; unfold fdiv in Q; try discriminate; try (injection Q as <-; lra).
  destruct (Req_EM_T A 0) as [|A0]; [discriminate|]. destruct (Req_EM_T B 0) as [|B0]; [discriminate|]. injection P as P. injection Q as Q.
  assert (FN : F <> 0). { intros ->. unfold Rdiv in P. rewrite Rmult_0_l in P. lra. }
  split; [|repeat split; try reflexivity; congruence]. apply compute_explicit; [|reflexivity]. exists F, p, q. cbn. repeat split; auto; f_equal; subst; field; auto.
Qed.
Lemma call_one k c : one_camera c -> no_sensor_over_intrinsics (is_explicit c) [k] -> snd (do_call sample k c) = false ->
  one_camera (fst (do_call sample k c)) /\ forall r, no_sensor_over_intrinsics (is_explicit c) (k :: r) -> no_sensor_over_intrinsics (is_explicit (fst (do_call sample k c))) r.
Proof.
  intros O S. apply one_metric in O as M. destruct M as (f & p & q & F & P & Q & P0 & Q0). destruct k; cbn [do_call no_sensor_over_intrinsics] in *.
  - unfold set_focal_length. destruct (bad_length f0) eqn:B; [discriminate|]. intros _. apply not_bad in B as (g & -> & G). cbn [fst].
    edestruct (compute_one (set_focal c (Fin g) false)) as (X & Y); [exists g, p, q; auto|reflexivity|]. rewrite Y. auto.
  - intros _. split; [destruct O as (? & ? & ? & O); do 3 eexists; exact O|auto].
  - intros _. split; [destruct O as (? & ? & ? & O); do 3 eexists; exact O|auto].
  - intros _. split; [destruct O as (? & ? & ? & O); do 3 eexists; exact O|auto].
  - destruct S as (S & A0 & B0 & _). intros _. cbn [fst set_sensor]. edestruct (compute_one (set_pitch (set_res c w h) (Fin a) (Fin b))) as (X & Y); [exists f, a, b; auto|exact S|]. rewrite Y, S. tauto.
  - unfold configure_from_pitch. intros H. apply thn_ok in H as H1. destruct H1 as (Hr & E). rewrite E in H |- *.
    apply res_ok in Hr. destruct Hr as (Er & _). rewrite Er in *. apply thn_ok in H as H2. destruct H2 as (Hq & E2). rewrite E2 in H |- *.
    apply pitch_pos in Hq as PP. destruct PP as (p1 & q1 & P1 & Q1 & P2 & Q2). apply pitch_ok in Hq. rewrite Hq in *. rewrite P1, Q1 in *.
    apply finish_one in H as (X & Y); [|exists f, p1, q1; auto|reflexivity]. rewrite Y. auto.
  - unfold configure_from_size. intros H. apply thn_ok in H as H1. destruct H1 as (Hr & E). rewrite E in H |- *.
    apply res_ok in Hr. destruct Hr as (Er & _). rewrite Er in *. apply thn_ok in H as H2. destruct H2 as (Hq & E2). rewrite E2 in H |- *.
    destruct height as [b|]; cbv beta iota zeta in Hq, H |- *.
    + apply size_pos in Hq as PP. destruct PP as (p1 & q1 & P1 & Q1 & P2 & Q2). apply size_ok in Hq. rewrite Hq in *. rewrite P1, Q1 in *.
      apply finish_one in H as (X & Y); [|exists f, p1, q1; auto|reflexivity]. rewrite Y. auto.
    + apply pitch_pos in Hq as PP. destruct PP as (p1 & q1 & P1 & Q1 & P2 & Q2). apply pitch_ok in Hq. rewrite Hq in *. rewrite P1 in *.
      apply finish_one in H as (X & Y); [|exists f, p1, p1; auto|reflexivity]. rewrite Y. auto.
  - intros H. apply intrinsics_one in H as (X & Y & _). cbv zeta in *. rewrite Y. auto.
Qed.
Lemma camera0_one : one_camera (camera0 sample) /\ is_explicit (camera0 sample) = false.
Proof. unfold camera0. apply compute_one; [|reflexivity]. do 3 eexists. cbn [focal pitch_x pitch_y]. repeat split; lra. Qed.
Lemma head_ok e k r : no_sensor_over_intrinsics e (k :: r) -> no_sensor_over_intrinsics e [k].
Proof. destruct k; cbn; tauto. Qed.
Lemma run_one l : forall c, one_camera c -> no_sensor_over_intrinsics (is_explicit c) l -> all_return sample l c -> one_camera (run sample l c).
Proof.
  induction l as [|k l IH]; intros c O S A; [exact O|]. destruct A as (K & A). cbn [run]. destruct (call_one k c O (head_ok _ _ _ S) K) as (O' & S'). apply IH; auto.
Qed.
(* holds for every accepted history without a set_sensor over explicit intrinsics; missing: those histories, where it is false (below) *)
Theorem C117_consistent_partial : forall l, no_sensor_over_intrinsics false l -> all_return sample l (camera0 sample) -> one_camera (run sample l (camera0 sample)).
Proof. intros l S A. destruct camera0_one as (O & E). apply run_one; [exact O|rewrite E; auto|auto]. Qed.
(* after set_intrinsics, set_focal_length zooms: it scales both focal lengths in pixels and keeps the principal point *)
Theorem C117_zoom : forall c f g u v w h anchor F,
  let c1 := set_intrinsics sample (Fin f) (Fin g) u v w h (Fin anchor) c in
  let c2 := set_focal_length sample (Fin F) (fst c1) in
  snd c1 = false -> snd c2 = false ->
  fx (fst c2) = Fin (f * (F / anchor)) /\ fy (fst c2) = Fin (g * (F / anchor)) /\ cx (fst c2) = u /\ cy (fst c2) = v.
Proof.
  intros c f g u v w h anchor F c1 c2 A B. pose proof (intrinsics_one (Fin f) (Fin g) u v w h (Fin anchor) c A) as Q. cbv zeta in Q. fold c1 in Q. destruct Q as ((f' & p & q & F1 & P & Q & P0 & Q0 & FX & FY) & E & X & Y & U & V & FA & AN).
  unfold c2, set_focal_length in *. destruct (bad_length (Fin F)) eqn:BL; [discriminate|]. cbn [fst]. clear B.
  rewrite FA in F1. injection F1 as <-. rewrite X in FX. rewrite Y in FY. injection FX as FX. injection FY as FY.
  unfold compute_intrinsics. cbv zeta. cbn [is_explicit set_rxy set_focal]. cbn [set_solid set_frustum set_intr set_rxy set_focal focal pitch_x pitch_y fx fy cx cy].
  rewrite P, Q. unfold fdiv. destruct (Req_EM_T p 0); [lra|]. destruct (Req_EM_T q 0); [lra|].
  assert (N : anchor <> 0) by congruence. split; [f_equal; rewrite ?FX, ?FY; field; lra|]. split; [f_equal; rewrite ?FX, ?FY; field; lra|]. split; [exact U|exact V].
Qed.
End Run.
Print Assumptions C117_consistent_partial.
Print Assumptions C117_zoom.
(* every positive pinhole camera is accepted *)
Lemma good_length r : 0 < r -> bad_length (Fin r) = false.
Proof. intros H. unfold bad_length. cbn. rewrite (proj2 (Rleb_false r 0)) by lra. reflexivity. Qed.
Lemma pitch_accept a b c : 0 < a -> 0 < b -> sensor_set_pitch (Fin a) (Fin b) c = (set_pitch c (Fin a) (Fin b), false).
Proof. intros A B. unfold sensor_set_pitch. rewrite !good_length by auto. reflexivity. Qed.
Lemma fdiv_fin a b : b <> 0 -> fdiv (Fin a) (Fin b) = Fin (a / b).
Proof. intros H. unfold fdiv. destruct (Req_EM_T b 0); [lra|]. reflexivity. Qed.
Lemma intrinsics_accept sample f g u v w h anchor c : 0 < f -> 0 < g -> 0 < anchor -> (0 < w)%Z -> (0 < h)%Z -> snd (set_intrinsics sample (Fin f) (Fin g) u v w h (Fin anchor) c) = false.
Proof.
  intros F G A W H. unfold set_intrinsics, sensor_set_resolution. rewrite (proj2 (Z.ltb_ge w 0)), (proj2 (Z.ltb_ge h 0)) by lia. cbn [orb thn snd fst]. cbv zeta. cbn [set_focal set_res set_intr focal fx fy].
  rewrite !fdiv_fin by lra. assert (0 < anchor / f) by (apply Rdiv_lt_0_compat; auto). assert (0 < anchor / g) by (apply Rdiv_lt_0_compat; auto). rewrite pitch_accept by auto. cbn [thn snd fst fmulz].
  assert (0 < IZR w) by (apply IZR_lt; auto). assert (0 < IZR h) by (apply IZR_lt; auto).
  unfold sensor_set_size. rewrite !good_length by (apply Rmult_lt_0_compat; auto). cbn [orb set_pitch set_focal set_res set_intr res_x res_y]. rewrite !fdiv_fin by lra.
  rewrite pitch_accept by (apply Rdiv_lt_0_compat; auto; apply Rmult_lt_0_compat; auto). reflexivity.
Qed.
(* a sensor of twice the pixel size put behind the lens of a camera set up by intrinsics leaves the focal length in pixels as it was *)
Theorem C117_sensor_refuted : forall sample, exists l, all_return sample l (camera0 sample) /\ ~ one_camera (run sample l (camera0 sample)).
Proof.
  intros sample. exists [SetIntrinsics (Fin 2) (Fin 2) (Fin 2) (Fin 2) 4 4 (Fin 1); SetSensor 4 4 1 1].
  assert (A : snd (set_intrinsics sample (Fin 2) (Fin 2) (Fin 2) (Fin 2) 4 4 (Fin 1) (camera0 sample)) = false) by (apply intrinsics_accept; lra || lia).
  split; [cbn [all_return do_call]; rewrite A; auto|]. cbn [run do_call set_sensor fst]. apply intrinsics_one in A. cbv zeta in A. destruct A as (_ & E & X & _ & _ & _ & F & _). set (c := fst (set_intrinsics _ _ _ _ _ _ _ _ _)) in *. clearbody c.
  intros (f & p & q & F' & P & _ & _ & _ & FX & _). revert F' P FX. unfold compute_intrinsics. cbv zeta. cbn [is_explicit set_rxy set_pitch set_res]. rewrite E. cbn [set_solid set_frustum set_intr set_rxy set_pitch set_res focal pitch_x fx]. rewrite F, X.
  intros F' P FX. injection F' as <-. injection P as <-. injection FX as FX. lra.
Qed.
Print Assumptions C117_sensor_refuted.
(* an accepted history: intrinsics, a zoom, then a sensor *)
Example C117_case : forall sample, let l := [SetIntrinsics (Fin 2) (Fin 2) (Fin 2) (Fin 2) 4 4 (Fin 1); SetFocalLength (Fin 3); SetSensor 4 4 1 1] in
  no_sensor_over_intrinsics false l /\ all_return sample l (camera0 sample).
Proof.
  intros sample l. split; [cbn; repeat split; lra|]. unfold l. cbn [all_return do_call]. rewrite intrinsics_accept by (lra || lia). repeat split; auto. unfold set_focal_length. rewrite good_length by lra. reflexivity.
Qed.

(** C119: what a sensor configuration call was given is what the camera reports *)
Section Readback.
Variable sample : image (option vec3) -> R -> R -> option vec3.
Definition given (a : option fl) (d : fl) : fl := match a with Some x => x | None => d end.
Lemma compute_keeps c : let c' := compute_intrinsics sample c in focal c' = focal c /\ res_x c' = res_x c /\ res_y c' = res_y c /\ rx c' = res_x c /\ ry c' = res_y c /\ pitch_x c' = pitch_x c /\ pitch_y c' = pitch_y c /\ cx c' = cx c /\ cy c' = cy c.
Proof. unfold compute_intrinsics. cbv zeta. cbn [is_explicit set_rxy]. destruct (is_explicit c); cbn; auto 10. Qed.
(* pitch and principal point as given; a missing vertical pitch is the horizontal one; a missing principal point is the image centre *)
Theorem C119_from_pitch : forall w h px py u v c, let r := configure_from_pitch sample w h px py u v c in snd r = false -> let c' := fst r in
  res_x c' = w /\ res_y c' = h /\ pitch_x c' = px /\ pitch_y c' = given py px /\ cx c' = given u (Fin (IZR w / 2)) /\ cy c' = given v (Fin (IZR h / 2)) /\ focal c' = focal c.
Proof.
  intros w h px py u v c. cbv zeta. unfold configure_from_pitch. intros H. apply thn_ok in H as H1. destruct H1 as (Hr & E). rewrite E in H |- *.
  apply res_ok in Hr. destruct Hr as (Er & _). rewrite Er in *. apply thn_ok in H as H2. destruct H2 as (Hq & E2). rewrite E2 in H |- *.
  apply pitch_ok in Hq. rewrite Hq in *. unfold finish_configure in *. cbv zeta in *. destruct (_ || _)%bool; [discriminate|]. cbn [fst]. edestruct compute_keeps as (A & B & C & _ & _ & D & F & G & K). cbv zeta in *. rewrite A, B, C, D, F, G, K. cbn. auto 10.
Qed.
(* the sensor is as large as asked; a missing height gives square pixels *)
Definition product (p : fl) (n : Z) (l : fl) : Prop := exists x y, p = Fin x /\ l = Fin y /\ x * IZR n = y.
Theorem C119_from_size : forall w h width height u v c, let r := configure_from_size sample w h width height u v c in snd r = false -> let c' := fst r in
  res_x c' = w /\ res_y c' = h /\ product (pitch_x c') w width /\ (match height with Some b => product (pitch_y c') h b | None => pitch_y c' = pitch_x c' end) /\
  cx c' = given u (Fin (IZR w / 2)) /\ cy c' = given v (Fin (IZR h / 2)) /\ focal c' = focal c.
Proof.
  intros w h width height u v c. cbv zeta. unfold configure_from_size. intros H. apply thn_ok in H as H1. destruct H1 as (Hr & E). rewrite E in H |- *.
  apply res_ok in Hr. destruct Hr as (Er & _). rewrite Er in *. apply thn_ok in H as H2. destruct H2 as (Hq & E2). rewrite E2 in H |- *. clear E E2.
  assert (PR : forall a n p, fdiv a (Fin (IZR n)) = Fin p -> 0 < p -> product (Fin p) n a).
  { intros a n p D P. destruct a as [x| | |]; unfold fdiv in D; try (destruct (Rltb 0 (IZR n)); [discriminate|destruct (Rltb (IZR n) 0); discriminate]); try discriminate. destruct (Req_EM_T (IZR n) 0); [discriminate|]. injection D as <-. exists (x / IZR n), x. repeat split. field. auto. }
  destruct height as [b|]; cbv beta iota zeta in Hq, H |- *.
  - apply size_pos in Hq as S. destruct S as (p & q & P & Q & P0 & Q0). apply size_ok in Hq. rewrite Hq in *. rewrite P, Q in *. apply PR in P; auto. apply PR in Q; auto. cbn [res_x res_y set_res] in P, Q.
    unfold finish_configure in *. cbv zeta in *. destruct (_ || _)%bool; [discriminate|]. cbn [fst]. edestruct compute_keeps as (A & B & C & _ & _ & D & F & G & K). cbv zeta in *. rewrite A, B, C, D, F, G, K. cbn [set_intr set_pitch set_res res_x res_y pitch_x pitch_y cx cy focal set_focal]. auto 10.
  - apply pitch_pos in Hq as S. destruct S as (p & q & P & Q & P0 & Q0). apply pitch_ok in Hq. rewrite Hq in *. rewrite P in *. apply PR in P; auto.
    unfold finish_configure in *. cbv zeta in *. destruct (_ || _)%bool; [discriminate|]. cbn [fst]. edestruct compute_keeps as (A & B & C & _ & _ & D & F & G & K). cbv zeta in *. rewrite A, B, C, D, F, G, K. cbn [set_intr set_pitch set_res res_x res_y pitch_x pitch_y cx cy focal set_focal]. auto 10.
Qed.
(* and intrinsics *)
Theorem C119_intrinsics : forall a b u v w h anchor c, let r := set_intrinsics sample a b u v w h anchor c in snd r = false -> let c' := fst r in
  res_x c' = w /\ res_y c' = h /\ fx c' = a /\ fy c' = b /\ cx c' = u /\ cy c' = v /\ focal c' = anchor /\ one_camera c'.
Proof.
  intros a b u v w h anchor c. cbv zeta. intros H. pose proof (intrinsics_one sample a b u v w h anchor c H) as (O & _ & X & Y & U & V & F & _).
  assert (RR : res_x (fst (set_intrinsics sample a b u v w h anchor c)) = w /\ res_y (fst (set_intrinsics sample a b u v w h anchor c)) = h); [|destruct RR; auto 10].
  clear O X Y U V F. unfold set_intrinsics in *. apply thn_ok in H as H1. destruct H1 as (Hr & E). rewrite E in H |- *.
  apply res_ok in Hr. destruct Hr as (Er & W0 & H0). rewrite Er in *. apply thn_ok in H as H2. destruct H2 as (Hq & E2). rewrite E2 in H |- *. apply pitch_ok in Hq. rewrite Hq in *.
  apply thn_ok in H as H3. destruct H3 as (Hs & E3). rewrite E3. apply size_ok in Hs. rewrite Hs. cbn [fst]. edestruct compute_keeps as (_ & B & C & _). cbv zeta in *. rewrite B, C. auto.
Qed.
Example C119_case : snd (configure_from_pitch sample 640 480 (Fin (/ 100000)) None None None (camera0 sample)) = false /\ snd (configure_from_size sample 640 480 (Fin (/ 100)) None None None (camera0 sample)) = false.
Proof.
  split; unfold configure_from_pitch, configure_from_size, sensor_set_resolution; cbn [Z.ltb Z.compare orb thn snd fst]; rewrite ?fdiv_fin by lra; rewrite pitch_accept by lra; reflexivity.
Qed.
End Readback.
Print Assumptions C119_from_pitch.
Print Assumptions C119_from_size.
Print Assumptions C119_intrinsics.
