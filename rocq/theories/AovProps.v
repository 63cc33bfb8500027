(* C121: the auxiliary channels of a pixel describe what its camera rays see first. *)
From Coq Require Import Reals Lra.
From Verif Require Import Common Vec3 LightModel AovModel.
Open Scope R_scope.

(** Specification *)
(* the first thing a camera ray shows: the distance from the camera, and its id, albedo and normal when it is a surface. Surfaces that let
   the ray through are passed; a volume scattering event shows the volume, which is not a surface *)
Inductive shown := Surface (distance : R) (id : nat) (albedo : R) (normal : vec3) | Light (distance : R) | Nothing.
Fixpoint shows (travelled : R) (l : list event) : shown :=
  match l with
  | Pass t _ :: r => shows (travelled + t) r
  | Shade t id albedo normal :: _ => Surface (travelled + t) id albedo normal
  | LightHit t :: _ => Light (travelled + t)
  | _ => Nothing
  end.
Definition sees (p : sample) : shown := shows 0 (events p).
(* d is the smallest distance at which one of the samples shows a surface or a light *)
Definition distance_of (x : shown) : option R := match x with Surface d _ _ _ => Some d | Light d => Some d | Nothing => None end.
Definition nearest (l : list sample) (d : option R) : Prop :=
  match d with
  | Some x => (exists p, In p l /\ distance_of (sees p) = Some x) /\ (forall p y, In p l -> distance_of (sees p) = Some y -> x <= y)
  | None => forall p, In p l -> distance_of (sees p) = None
  end.
Definition first_id (l : list sample) (i : option nat) : Prop :=
  match l with
  | [] => i = None
  | p :: _ => match sees p with Surface _ id _ _ => i = Some id | _ => i = None end
  end.
Definition albedo_of (x : shown) : R := match x with Surface _ _ a _ => a | _ => 0 end.
Definition normal_of (x : shown) : vec3 := match x with Surface _ _ _ n => n | _ => vzero end.
Fixpoint total (l : list R) : R := match l with [] => 0 | x :: r => x + total r end.
Fixpoint vtotal (l : list vec3) : vec3 := match l with [] => vzero | x :: r => vadd x (vtotal r) end.
(* the mean albedo over the pixel, background counting as black *)
Definition mean_albedo (l : list sample) : R := total (map (fun p => albedo_of (sees p)) l) / INR (List.length l).
(* a is the direction of v *)
Definition direction_of (a v : vec3) : Prop := dot a a = 1 /\ exists k, 0 < k /\ v = vscale k a.
Definition mean_normal (l : list sample) : vec3 := vtotal (map (fun p => normal_of (sees p)) l).

(** Proofs *)
(* paths without transparent surfaces and without directly visible lights *)
Definition plain (p : sample) : Prop := match events p with Pass _ _ :: _ => False | LightHit _ :: _ => False | _ => True end.
(* the events after the first shading do not touch depth, albedo and normals *)
Lemma path_later s mb : forall l b a, (0 < b)%nat -> let a' := path s mb b l a in a_depth a' = a_depth a /\ a_albedo a' = a_albedo a /\ a_normal a' = a_normal a /\ a_taken a' = a_taken a /\ (s <> 0%nat -> a_id a' = a_id a).
Proof.
  induction l as [|e l IH]; intros b a B; cbn [path]; destruct (b <? mb)%nat; auto 10. assert (SI : forall id, a_depth (see_id s id a) = a_depth a /\ a_albedo (see_id s id a) = a_albedo a /\ a_normal (see_id s id a) = a_normal a /\ a_taken (see_id s id a) = a_taken a /\ (s <> 0%nat -> a_id (see_id s id a) = a_id a)) by (intros id; unfold see_id; destruct s; repeat split; auto; congruence).
  destruct e as [t id|t id al n| |t]; auto 10; cbv zeta.
  - destruct (IH b (see_id s id a) B) as (A1 & A2 & A3 & A4 & A5). destruct (SI id) as (S1 & S2 & S3 & S4 & S5). repeat split; try congruence. intros N. rewrite A5, S5; auto.
  - destruct (b =? 0)%nat eqn:E; [apply Nat.eqb_eq in E; lia|]. destruct (IH (S b) (see_id s id a) ltac:(lia)) as (A1 & A2 & A3 & A4 & A5). destruct (SI id) as (S1 & S2 & S3 & S4 & S5). repeat split; try congruence. intros N. rewrite A5, S5; auto.
Qed.
Lemma see_same s id a : a_depth (see_id s id a) = a_depth a /\ a_albedo (see_id s id a) = a_albedo a /\ a_normal (see_id s id a) = a_normal a /\ a_taken (see_id s id a) = a_taken a.
Proof. destruct s; cbn; auto. Qed.
(* depth, albedo and normals of one path; [skipped] is the distance that the recorded depth leaves out *)
Fixpoint last_leg (l : list event) : R := match l with Pass _ _ :: r => last_leg r | Shade t _ _ _ :: _ => t | LightHit t :: _ => t | _ => 0 end.
Lemma path_first s mb : (0 < mb)%nat -> forall l d a, let a' := path s mb 0 l a in
  a_taken a' = a_taken a /\
  match shows d l with
  | Surface _ _ al n => a_depth a' = closer (a_depth a) (last_leg l) /\ a_albedo a' = a_albedo a + al /\ a_normal a' = vadd (a_normal a) n
  | _ => a_depth a' = a_depth a /\ a_albedo a' = a_albedo a /\ a_normal a' = a_normal a
  end.
Proof.
  intros MB. assert (LT : (0 <? mb)%nat = true) by (apply Nat.ltb_lt; auto). induction l as [|e l IH]; intros d a; cbn [path]; rewrite LT; cbn [shows last_leg]; auto.
  destruct e as [t id|t id al n| |t]; auto; cbv zeta.
  - specialize (IH (d + t) (see_id s id a)). cbv zeta in IH. destruct (see_same s id a) as (S1 & S2 & S3 & S4). rewrite S1, S2, S3, S4 in IH. exact IH.
  - cbn [Nat.eqb]. destruct (path_later s mb l 1 (record t al n (see_id s id a)) ltac:(lia)) as (A1 & A2 & A3 & A4 & _). destruct (see_same s id a) as (S1 & S2 & S3 & S4). rewrite A1, A2, A3, A4. cbn. rewrite S1, S2, S3, S4. auto.
  - destruct (path_later s mb l 1 a ltac:(lia)) as (A1 & A2 & A3 & A4 & _). auto.
Qed.
Lemma samples_sum mb : (0 < mb)%nat -> forall l s a, let a' := samples s mb l a in
  a_albedo a' = a_albedo a + total (map (fun p => albedo_of (sees p)) l) /\ a_normal a' = vadd (a_normal a) (vtotal (map (fun p => normal_of (sees p)) l)) /\
  a_taken a' = (a_taken a + List.length (filter (fun p => negb (is_nan p)) l))%nat.
Proof.
  intros MB. induction l as [|p l IH]; intros s a; cbn [samples map total vtotal filter].
  - cbv zeta. split; [ring|]. split; [apply v3_eq; unfold vadd, vzero; cbn; ring|cbn; lia].
  - cbv zeta. destruct (path_first s mb MB (events p) 0 a) as (T & P). cbv zeta in *. set (a1 := path s mb 0 (events p) a) in *. fold (sees p) in P.
    set (a2 := if is_nan p then a1 else Aov (a_depth a1) (a_id a1) (a_albedo a1) (a_normal a1) (S (a_taken a1))).
    assert (E2 : a_albedo a2 = a_albedo a1 /\ a_normal a2 = a_normal a1) by (unfold a2; destruct (is_nan p); auto). destruct E2 as (E2 & E3).
    destruct (IH (S s) a2) as (A & B & C). rewrite A, B, C, E2, E3. assert (Q : a_albedo a1 = a_albedo a + albedo_of (sees p) /\ a_normal a1 = vadd (a_normal a) (normal_of (sees p))).
    { destruct (sees p); destruct P as (_ & P1 & P2); rewrite P1, P2; cbn; split; auto; try ring; apply v3_eq; unfold vadd, vzero; cbn; ring. }
    destruct Q as (-> & ->). split; [ring|]. split; [apply v3_eq; unfold vadd; cbn; ring|]. unfold a2. destruct (is_nan p); cbn; rewrite T; lia.
Qed.
(* albedo and normals: exact means, whatever the paths meet, when no sample is NaN *)
Theorem C121_albedo_partial : forall mb l, (0 < mb)%nat -> l <> [] -> (forall p, In p l -> is_nan p = false) -> x_albedo (render_pixel mb l) = Some (mean_albedo l).
Proof.
  intros mb l MB NE NN. unfold render_pixel, finish. cbn [x_albedo]. destruct (samples_sum mb MB l 0 aov0) as (A & _ & C). cbv zeta in *. rewrite A, C. cbn [aov0 a_albedo a_taken].
  assert (F : filter (fun p => negb (is_nan p)) l = l). { clear A C NE. induction l as [|p l IH]; auto. cbn. rewrite (NN p) by (left; auto). cbn. f_equal. apply IH. intros q Q. apply NN. right; auto. }
  rewrite F. cbn [Nat.add]. destruct (List.length l) eqn:L; [destruct l; [congruence|discriminate]|]. f_equal. unfold mean_albedo. rewrite L. unfold Rdiv. f_equal. ring.
Qed.
Lemma vlen_nz v : dot v v <> 0 -> 0 < vlen v.
Proof. intros H. apply sqrt_lt_R0. assert (0 <= dot v v) by (unfold dot; nra). lra. Qed.
Lemma unit_scaled v k : 0 < k -> k * k = dot v v -> dot (vscale (/ k) v) (vscale (/ k) v) = 1.
Proof. intros K E. replace (dot (vscale (/ k) v) (vscale (/ k) v)) with (dot v v / (k * k)) by (unfold dot, vscale; cbn; field; lra). rewrite <- E. field. lra. Qed.
Lemma scale_back v k i : 0 < k -> 0 < i -> v = vscale (i * k) (vscale (/ k) (vscale (/ i) v)).
Proof. intros K I. apply v3_eq; unfold vscale; cbn; field; lra. Qed.
Theorem C121_normals : forall mb l n, (0 < mb)%nat -> x_normal (render_pixel mb l) = Some n -> direction_of n (mean_normal l).
Proof.
  intros mb l n MB. unfold render_pixel, finish. cbn [x_normal]. destruct (samples_sum mb MB l 0 aov0) as (_ & B & C). cbv zeta in *. rewrite B, C. cbn [aov0 a_normal a_taken].
  set (k := (0 + _)%nat). replace (vadd vzero (vtotal (map (fun p => normal_of (sees p)) l))) with (mean_normal l) by (unfold mean_normal; apply v3_eq; unfold vadd, vzero; cbn; ring). clearbody k.
  destruct k as [|k]; [discriminate|]. set (v := vscale (/ INR (S k)) (mean_normal l)). destruct (Req_EM_T (dot v v) 0) as [|NZ]; [discriminate|]. intros H. injection H as <-. pose proof (vlen_nz v NZ) as LP. assert (LQ : vlen v * vlen v = dot v v) by (apply sqrt_sqrt; unfold dot; nra).
  assert (IP : 0 < INR (S k)) by (apply lt_0_INR; lia). split.
  - apply unit_scaled; auto.
  - exists (INR (S k) * vlen v). split; [apply Rmult_lt_0_compat; auto|]. apply scale_back; auto.
Qed.
(* depth: exact for pixels whose camera rays meet no transparent surface and see no light directly *)
Lemma plain_leg p : plain p -> match sees p with Surface d _ _ _ => last_leg (events p) = d | Light _ => False | Nothing => True end.
Proof. unfold plain, sees. destruct (events p) as [|[t id|t id al n| |t] r]; cbn; auto; try contradiction. intros _. ring. Qed.
Lemma samples_depth mb : (0 < mb)%nat -> forall l s a, (forall p, In p l -> plain p) -> forall (q : list sample), nearest q (a_depth a) -> nearest (q ++ l) (a_depth (samples s mb l a)).
Proof.
  intros MB. induction l as [|p l IH]; intros s a PL q H; cbn [samples]; [rewrite app_nil_r; auto|]. cbv zeta.
  replace (q ++ p :: l) with ((q ++ [p]) ++ l) by (rewrite <- app_assoc; auto). apply IH; [intros x X; apply PL; right; auto|].
  destruct (path_first s mb MB (events p) 0 a) as (_ & P). cbv zeta in *. set (a1 := path s mb 0 (events p) a) in *. fold (sees p) in P.
  assert (E : a_depth (if is_nan p then a1 else Aov (a_depth a1) (a_id a1) (a_albedo a1) (a_normal a1) (S (a_taken a1))) = a_depth a1) by (destruct (is_nan p); auto). rewrite E.
  pose proof (plain_leg p (PL p (or_introl eq_refl))) as LG. destruct (sees p) as [d id al n|d|] eqn:SP; [|contradiction|].
  - destruct P as (-> & _). rewrite LG. destruct (a_depth a) as [x|]; cbn [closer nearest] in *.
    + destruct H as ((p0 & I0 & D0) & M0). split.
      * destruct (Rle_dec x d); [exists p0; rewrite Rmin_left by lra; split; auto; apply in_or_app; auto|exists p; rewrite Rmin_right by lra; split; [apply in_or_app; right; left; auto|rewrite SP; auto]].
      * intros p1 y I1 Y. apply in_app_or in I1 as [I1|[<-|[]]]; [pose proof (M0 p1 y I1 Y); pose proof (Rmin_l x d); lra|]. rewrite SP in Y. injection Y as <-. apply Rmin_r.
    + split; [exists p; split; [apply in_or_app; right; left; auto|rewrite SP; auto]|]. intros p1 y I1 Y. apply in_app_or in I1 as [I1|[<-|[]]]; [rewrite (H p1 I1) in Y; discriminate|rewrite SP in Y; injection Y as <-; lra].
  - destruct P as (-> & _). destruct (a_depth a) as [x|]; cbn [nearest] in *.
    + destruct H as ((p0 & I0 & D0) & M0). split; [exists p0; split; auto; apply in_or_app; auto|]. intros p1 y I1 Y. apply in_app_or in I1 as [I1|[<-|[]]]; [eauto|rewrite SP in Y; discriminate].
    + intros p1 I1. apply in_app_or in I1 as [I1|[<-|[]]]; auto. rewrite SP. reflexivity.
Qed.
Theorem C121_depth_partial : forall mb l, (0 < mb)%nat -> (forall p, In p l -> plain p) -> nearest l (x_depth (render_pixel mb l)).
Proof. intros mb l MB PL. unfold render_pixel, finish. cbn [x_depth]. change l with (([] : list sample) ++ l) at 1. apply samples_depth; auto. cbn. intros p []. Qed.
(* behind a transparent surface the depth is measured from that surface, not from the camera *)
Theorem C121_depth_refuted_transparent : forall mb t1 t2 i j al n, (0 < mb)%nat -> 0 < t1 ->
  let l := [Sample [Pass t1 i; Shade t2 j al n] false] in nearest l (Some (t1 + t2)) /\ x_depth (render_pixel mb l) = Some t2 /\ ~ nearest l (x_depth (render_pixel mb l)).
Proof.
  intros mb t1 t2 i j al n MB T l. assert (D : x_depth (render_pixel mb l) = Some t2). { unfold render_pixel, l. cbn. destruct mb; [lia|]. cbn. destruct mb; cbn; auto. }
  split; [|split; [exact D|]].
  - split; [exists (Sample [Pass t1 i; Shade t2 j al n] false); split; [left; auto|cbn; f_equal; ring]|]. intros p y [<-|[]] Y. cbn in Y. injection Y as <-. lra.
  - rewrite D. intros ((p & [<-|[]] & Y) & _). cbn in Y. injection Y as Y. lra.
Qed.
(* a light seen directly leaves the depth at infinity *)
Theorem C121_depth_refuted_light : forall mb t, (0 < mb)%nat -> let l := [Sample [LightHit t] false] in nearest l (Some t) /\ x_depth (render_pixel mb l) = None.
Proof.
  intros mb t MB l. split; [split; [exists (Sample [LightHit t] false); split; [left; auto|cbn; f_equal; ring]|]; intros p y [<-|[]] Y; cbn in Y; injection Y as <-; lra|]. unfold render_pixel, l. cbn. destruct mb; [lia|]. reflexivity.
Qed.
(* a NaN sample is counted in the albedo sum but not in the number of samples: two samples of albedo 1/2, one of them NaN, give albedo 1 *)
Theorem C121_albedo_refuted_nan : forall mb t i al n, (0 < mb)%nat -> let l := [Sample [Shade t i al n] false; Sample [Shade t i al n] true] in mean_albedo l = al /\ x_albedo (render_pixel mb l) = Some (2 * al).
Proof.
  intros mb t i al n MB l. split; [unfold mean_albedo, l; cbn; field|]. unfold render_pixel, finish. cbn [x_albedo]. destruct (samples_sum mb MB l 0 aov0) as (A & _ & C). cbv zeta in *. rewrite A, C. unfold l. cbn. f_equal. field.
Qed.
(* geometry id: exact when the first sample's path meets one surface only *)
Lemma samples_id mb : forall l s a, s <> 0%nat -> a_id (samples s mb l a) = a_id a.
Proof.
  induction l as [|p l IH]; intros s a NS; cbn [samples]; auto. cbv zeta. rewrite IH by lia. assert (E : forall l b a, a_id (path s mb b l a) = a_id a).
  { clear IH a. intros q. induction q as [|e r IH]; intros b a; cbn [path]; destruct (b <? mb)%nat; auto. assert (SI : forall id a, a_id (see_id s id a) = a_id a) by (intros; unfold see_id; destruct s; [congruence|auto]). destruct e; auto; cbv zeta; rewrite IH; auto. destruct (b =? 0)%nat; cbn; auto. }
  destruct (is_nan p); cbn; apply E.
Qed.
Definition surfaces (l : list event) : nat := List.length (filter (fun e => match e with Pass _ _ => true | Shade _ _ _ _ => true | _ => false end) l).
Lemma path_no_surface s mb : forall l b a, surfaces l = 0%nat -> a_id (path s mb b l a) = a_id a.
Proof. induction l as [|e l IH]; intros b a; cbn [path]; destruct (b <? mb)%nat; auto; destruct e; cbn; auto; discriminate. Qed.
Theorem C121_id_partial : forall mb p l, (0 < mb)%nat -> (match sees p with Surface _ _ _ _ => surfaces (events p) = 1%nat | _ => surfaces (events p) = 0%nat end) -> first_id (p :: l) (x_id (render_pixel mb (p :: l))).
Proof.
  intros mb p l MB H. unfold render_pixel, finish. cbn [x_id samples]. cbv zeta. rewrite samples_id by lia. assert (E : forall a, a_id (if is_nan p then a else Aov (a_depth a) (a_id a) (a_albedo a) (a_normal a) (S (a_taken a))) = a_id a) by (intros; destruct (is_nan p); auto). rewrite E.
  unfold first_id, sees in *. destruct (events p) as [|[t id|t id al n| |t] r]; cbn [shows] in *.
  - destruct mb; reflexivity.
  - exfalso. revert H. generalize (0 + t). assert (G : forall r d, match shows d r with Surface _ _ _ _ => (1 <= surfaces r)%nat | _ => True end). { clear. induction r as [|[t id|t id al n| |t] r IH]; intros d; cbn; auto; unfold surfaces in *; cbn; try lia. specialize (IH (d + t)). destruct (shows (d + t) r); auto. }
    intros d. specialize (G r d). unfold surfaces in *. cbn. destruct (shows d r); lia.
  - cbn [path]. rewrite (proj2 (Nat.ltb_lt 0 mb) MB). cbn [Nat.eqb]. rewrite path_no_surface by (unfold surfaces in *; cbn in H; lia). reflexivity.
  - rewrite path_no_surface by auto. reflexivity.
  - destruct mb; [lia|]. reflexivity.
Qed.
(* otherwise the id is overwritten at every bounce: two shaded surfaces in a row leave the id of the second, which the camera does not see *)
Theorem C121_id_refuted : forall mb t1 t2 i j a1 a2 n1 n2, (2 <= mb)%nat -> i <> j -> let l := [Sample [Shade t1 i a1 n1; Shade t2 j a2 n2] false] in
  first_id l (Some i) /\ x_id (render_pixel mb l) = Some j.
Proof. intros mb t1 t2 i j a1 a2 n1 n2 MB N l. split; [reflexivity|]. unfold render_pixel, l. destruct mb as [|[|mb]]; [lia|lia|]. cbn. destruct mb; reflexivity. Qed.
Print Assumptions C121_albedo_partial.
Print Assumptions C121_normals.
Print Assumptions C121_depth_partial.
Print Assumptions C121_depth_refuted_transparent.
Print Assumptions C121_depth_refuted_light.
Print Assumptions C121_albedo_refuted_nan.
Print Assumptions C121_id_partial.
Print Assumptions C121_id_refuted.
Example C121_case : let l := [Sample [Shade 3 7 (1 / 2) (V3 0 0 1)] false; Sample [] false] in (forall p, In p l -> plain p) /\ nearest l (Some 3) /\ mean_albedo l = 1 / 4.
Proof.
  cbv zeta. split; [intros p [<-|[<-|[]]]; exact I|]. split; [|unfold mean_albedo; cbn; field].
  split; [eexists; split; [left; reflexivity|cbn; f_equal; ring]|]. intros p y [<-|[<-|[]]] Y; cbn in Y; [injection Y as <-; lra|discriminate].
Qed.
