(* C138: the optics a camera caches, over histories of configuration calls. C139: what the renderer does with them. *)
From Verif Require Import Vec3 DistortionModel FrustumModel CameraModel SensorModel PsfModel DefocusModel DefocusProps OpticsModel.
Open Scope R_scope.

Section Props.
Variable sample : image (option vec3) -> R -> R -> option vec3.

(* the PSF the aperture gives now *)
Definition psf_fresh (o : optics) : Prop := use_ap o = true -> exists r b, psf o = Some (Airy (focal (cam o)) (pitch_x (cam o)) (pitch_y (cam o)) (diameter o) r b).
(* the blur kernels are those of the current focus distance, focal length, aperture and pixels; without any, the camera is focused at infinity *)
Definition blur_fresh (o : optics) : Prop :=
  match blur o with
  | Some a => b_diopters a = get_diopters (focus o) /\ b_focal a = focal (cam o) /\ b_radius a = fhalf (diameter o) /\ b_px a = pitch_x (cam o) /\ b_py a = pitch_y (cam o)
  | None => get_diopters (focus o) = 0
  end.
(* a call that replaces or changes the sensor, or replaces the aperture *)
Definition new_part (k : op) : bool := match k with Cam (SetSensor _ _ _ _ | ConfigurePitch _ _ _ _ _ _ | ConfigureSize _ _ _ _ _ _ | SetIntrinsics _ _ _ _ _ _ _) _ | SetAperture _ => true | _ => false end.
(* ... or changes focal length or f-number *)
Definition new_geometry (k : op) : bool := match k with Cam (SetFocalLength _) _ | SetFstop _ _ => true | _ => new_part k end.
(* a history in which no call is of the given kind and no call throws *)
Fixpoint quiet (kind : op -> bool) (l : list op) (o : optics) : Prop :=
  match l with
  | [] => True
  | k :: r => kind k = false /\ exists o', step sample o k = Ok (o', false) /\ quiet kind r o'
  end.

Lemma rebuild_fresh o room o' : rebuild o room = Ok (o', false) -> psf_fresh o'.
Proof.
  unfold rebuild. destruct (use_ap o) eqn:U.
  - destruct (psf o) as [p|]; [|discriminate]. unfold make_psf. destruct room; [|discriminate]. intros E. injection E as <-. intros _. eexists _, _. reflexivity.
  - intros E. injection E as <-. intros X. congruence.
Qed.
(* C138: a call that (re)computes the aperture's PSF leaves it up to date, and so do all later calls other than those that change the sensor or replace
   the aperture. *)
Theorem C138_psf : 
  (forall o k o', (match k with UseAperturePsf _ _ _ | UseAperturePsfFlag true _ | SetFstop _ _ | Cam (SetFocalLength _) _ => True | _ => False end) ->
     step sample o k = Ok (o', false) -> psf_fresh o') /\
  psf_fresh (optics0 sample) /\
  (forall l o o', psf_fresh o -> quiet new_part l o -> history sample l o = Some o' -> psf_fresh o').
Proof.
  assert (A : forall o k o', (match k with UseAperturePsf _ _ _ | UseAperturePsfFlag true _ | SetFstop _ _ | Cam (SetFocalLength _) _ => True | _ => False end) -> step sample o k = Ok (o', false) -> psf_fresh o').
  { intros o k o' K E. destruct k as [k room| | | r b room| | [] room| | x room| | | ]; try contradiction.
    - destruct k; try contradiction. cbn [step] in E. destruct (set_focal_length sample f (cam o)) as [c [] ]; [discriminate|]. eapply rebuild_fresh; eauto.
    - cbn [step] in E. unfold make_psf in E. destruct room; [|discriminate]. injection E as <-. intros _. eexists _, _. reflexivity.
    - cbn [step] in E. unfold make_psf in E. destruct room; [|discriminate]. injection E as <-. intros _. eexists _, _. reflexivity.
    - cbn [step] in E. eapply rebuild_fresh; eauto. }
  split; auto. split. { intros X. discriminate. }
  induction l as [|k l IH]; intros o o' F Q H.
  - injection H as <-. auto.
  - cbn [quiet history] in *. destruct Q as (K & o1 & S & Q). rewrite S in H. eapply IH; [|exact Q|exact H]. clear IH Q H.
    destruct k as [k room| | t r b | r b room| | [] room| | x room|d| x | ]; try (eapply A; [|exact S]; exact I); try discriminate.
    + destruct k; try discriminate; try (eapply A; [|exact S]; exact I); cbn [step do_call] in S; unfold set_distortion, delete_distortion, use_blender_convention in S; injection S as <-; exact F.
    + cbn in S. injection S as <-. intros X. discriminate.
    + cbn in S. injection S as <-. intros X. discriminate.
    + cbn in S. injection S as <-. intros X. discriminate.
    + cbn in S. injection S as <-. exact F.
    + cbn [step] in S. unfold focus_at in S. destruct (set_focus_distance d); injection S as <-; exact F.
    + cbn [step] in S. unfold focus_at in S. destruct (set_diopters x); injection S as <-; exact F.
    + cbn in S. injection S as <-. exact F.
Qed.
(* C138: whatever happens to focal length, f-number, sensor, aperture, focus and distortion, thrown exceptions included, the aperture's PSF keeps the radius and the number of banks it
   was asked for until another PSF is asked for *)
Definition chooses_psf (k : op) : bool := match k with SetPsf _ _ _ | UseAperturePsf _ _ _ | DeletePsf | UseAperturePsfFlag _ _ => true | _ => false end.
Theorem C138_size : forall l o o' p, psf o = Some p -> Forall (fun k => chooses_psf k = false) l -> history sample l o = Some o' ->
  exists q, psf o' = Some q /\ psf_radius q = psf_radius p /\ psf_banks q = psf_banks p /\ use_ap o' = use_ap o.
Proof.
  assert (RB : forall o room o' t p, psf o = Some p -> rebuild o room = Ok (o', t) -> exists q, psf o' = Some q /\ psf_radius q = psf_radius p /\ psf_banks q = psf_banks p /\ use_ap o' = use_ap o).
  { intros o room o' t p P E. unfold rebuild in E. destruct (use_ap o) eqn:U.
    - rewrite P in E. unfold make_psf in E. destruct room; injection E as <- <-; [|exists p; auto]. eexists. split; [reflexivity|]. repeat split.
    - injection E as <- <-. exists p. auto. }
  induction l as [|k l IH]; intros o o' p P F H.
  - injection H as <-. exists p. auto.
  - inversion F as [|? ? K F' EQ]; subst. cbn [history] in H. destruct (step sample o k) as [[o1 t]| |] eqn:S; try discriminate.
    assert (X : exists q, psf o1 = Some q /\ psf_radius q = psf_radius p /\ psf_banks q = psf_banks p /\ use_ap o1 = use_ap o).
    { destruct k as [k room| d | tg r b | r b room| | fl room| | x room|d| x | ]; try discriminate.
      - destruct k; try (cbn [step] in S; destruct (do_call sample _ (cam o)) as [c b']; injection S as <- <-; exists p; auto; fail).
        cbn [step] in S. destruct (set_focal_length sample f (cam o)) as [c []]; [injection S as <- <-; exists p; auto|]. exact (RB (with_cam o c) room o1 t p P S).
      - injection S as <- <-. exists p. auto.
      - injection S as <- <-. exists p. auto.
      - cbn [step] in S. exact (RB (with_aperture o _ _) room o1 t p P S).
      - cbn [step] in S. unfold focus_at in S. destruct (set_focus_distance d); injection S as <- <-; exists p; auto.
      - cbn [step] in S. unfold focus_at in S. destruct (set_diopters x); injection S as <- <-; exists p; auto.
      - injection S as <- <-. exists p. auto. }
    destruct X as (q & Q1 & Q2 & Q3 & Q4). destruct (IH o1 o' q Q1 F' H) as (q' & R1 & R2 & R3 & R4). exists q'. split; auto. split; [congruence|]. split; congruence.
Qed.
Lemma stale_pitch o f px py d r b : use_ap o = true -> psf o = Some (Airy f px py d r b) -> px <> pitch_x (cam o) -> ~ psf_fresh o.
Proof. intros U P N F. destruct (F U) as (r' & b' & E). rewrite P in E. injection E as _ E _ _ _ _. contradiction. Qed.
Lemma configure_step o w h p : (0 < w)%Z -> (0 < h)%Z -> 0 < p ->
  exists c, step sample o (Cam (ConfigurePitch w h (Fin p) None None None) true) = Ok (with_cam o c, false) /\ pitch_x c = Fin p.
Proof.
  intros Hw Hh Hp. cbn [step do_call]. unfold configure_from_pitch, sensor_set_resolution, sensor_set_pitch.
  destruct (Z.ltb_spec w 0); [lia|]. destruct (Z.ltb_spec h 0); [lia|]. cbn [orb thn]. unfold bad_length, le0, is_inf, is_nan. unfold Rleb. destruct (Rle_dec p 0); [exfalso; lra|]. cbn [orb thn].
  unfold finish_configure. cbn [is_nan is_inf orb]. eexists. split; reflexivity.
Qed.
(* Refuted: "the aperture's PSF always matches the camera". Calls that change the sensor or replace the aperture never touch it ... *)
Theorem C138_refuted_psf : 
  (forall o k o' t, new_part k = true -> step sample o k = Ok (o', t) -> psf o' = psf o /\ use_ap o' = use_ap o) /\
  (* ... so new pixels, a new aperture or new intrinsics leave the PSF of the old ones *)
  (forall d, d <> Fin (5 / 100 / (28 / 10)) -> exists o, history sample [UseAperturePsf 64 16 true; SetAperture d] (optics0 sample) = Some o /\ ~ psf_fresh o) /\
  (forall w h p, p <> 85 / 10000000 -> exists o, history sample [UseAperturePsf 64 16 true; Cam (SetSensor w h p p) true] (optics0 sample) = Some o /\ ~ psf_fresh o) /\
  (forall w h p, (0 < w)%Z -> (0 < h)%Z -> 0 < p -> p <> 85 / 10000000 ->
     exists o, history sample [UseAperturePsf 64 16 true; Cam (ConfigurePitch w h (Fin p) None None None) true] (optics0 sample) = Some o /\ pitch_x (cam o) = Fin p /\ ~ psf_fresh o).
Proof.
  split; [|split; [|split]].
  - intros o k o' t K E. destruct k as [k room|d | | | | | | | | | ]; try discriminate.
    + destruct k; try discriminate; cbn [step] in E; destruct (do_call _ _ _) as [c b']; injection E as <- <-; split; reflexivity.
    + cbn in E. injection E as <- <-. split; reflexivity.
  - intros d D. eexists. split; [reflexivity|]. intros F. destruct (F eq_refl) as (r & b & E). cbn in E. injection E as E. congruence.
  - intros w h p P. eexists. split; [reflexivity|]. intros F. destruct (F eq_refl) as (r & b & E). cbn in E. injection E as E. congruence.
  - intros w h p Hw Hh Hp P.
    set (o1 := with_psf (optics0 sample) (make_psf (optics0 sample) 64 16 true) true).
    destruct (configure_step o1 w h p Hw Hh Hp) as (c & X1 & X2).
    exists (with_cam o1 c). split; [|split; [exact X2|]].
    + change (history sample [Cam (ConfigurePitch w h (Fin p) None None None) true] o1 = Some (with_cam o1 c)). clearbody o1. cbn [history]. rewrite X1. reflexivity.
    + eapply stale_pitch; [reflexivity|reflexivity|]. cbn [with_cam cam]. rewrite X2. intros E1. change (Fin (85 / 10000000) = Fin p) in E1. injection E1 as E1. apply P. symmetry. exact E1.
Qed.

(* C138: setting the focus leaves the blur kernels up to date, and so do all later calls that change neither focal length, f-number, aperture nor sensor. *)
Theorem C138_blur :
  (forall o d o', step sample o (SetFocus d) = Ok (o', false) -> blur_fresh o' /\ focus o' = d) /\
  (forall o x o', step sample o (SetDiopters x) = Ok (o', false) -> blur_fresh o') /\
  blur_fresh (optics0 sample) /\
  (forall l o o', blur_fresh o -> quiet new_geometry l o -> history sample l o = Some o' -> blur_fresh o').
Proof.
  assert (A : forall o r o' , focus_at o r = (o', false) -> blur_fresh o' /\ r = Some (focus o')).
  { intros o r o' E. unfold focus_at in E. destruct r as [d|]; [|discriminate]. injection E as <-. split; [|reflexivity]. repeat split. }
  split; [|split; [|split]].
  - intros o d o' E. cbn [step] in E. injection E as E. destruct (A _ _ _ E) as [B C]. split; auto. unfold set_focus_distance in C. destruct d; try discriminate; try congruence.
    destruct (Rltb _ _); congruence.
  - intros o x o' E. cbn [step] in E. injection E as E. apply A in E as [E _]. exact E.
  - reflexivity.
  - induction l as [|k l IH]; intros o o' F Q H.
    + injection H as <-. auto.
    + cbn [quiet history] in *. destruct Q as (K & o1 & S & Q). rewrite S in H. eapply IH; [|exact Q|exact H]. clear IH Q H.
      destruct k as [k room| | t r b | r b room| | [] room| | x room|d| x | ]; try discriminate.
      * destruct k; try discriminate; cbn [step do_call] in S; unfold set_distortion, delete_distortion, use_blender_convention in S; injection S as <-; exact F.
      * cbn in S. injection S as <-. exact F.
      * cbn [step] in S. destruct (make_psf o r b room); [|discriminate]. injection S as <-. exact F.
      * cbn in S. injection S as <-. exact F.
      * cbn [step] in S. destruct (make_psf o 64 16 room); [|discriminate]. injection S as <-. exact F.
      * cbn in S. injection S as <-. exact F.
      * cbn in S. injection S as <-. exact F.
      * cbn [step] in S. injection S as S. apply A in S as [S _]. exact S.
      * cbn [step] in S. injection S as S. apply A in S as [S _]. exact S.
      * cbn in S. injection S as <-. exact F.
Qed.

(* Refuted: "the blur of point sources always matches the camera". Changing the f-number or the focal length after focusing keeps the old kernels ... *)
Lemma focus_ten o : step sample o (SetFocus (Fin 10)) = Ok (with_aperture {| cam := cam o; diameter := diameter o; psf := psf o; use_ap := use_ap o; conv := conv o; focus := Fin 10; blur := blur o; dof := dof o |} (diameter o)
   (Some {| b_diopters := 1 / 10; b_focal := focal (cam o); b_radius := fhalf (diameter o); b_px := pitch_x (cam o); b_py := pitch_y (cam o) |}), false).
Proof.
  cbn [step]. unfold set_focus_distance, Rltb. destruct (Rlt_dec (Rabs 10) (/ 1000000000000)) as [H|H]; [|reflexivity]. exfalso. rewrite Rabs_right in H by lra. lra.
Qed.
Theorem C138_refuted_blur : forall o, use_ap o = false ->
  (forall o' k t, (match k with SetFstop _ _ | Cam (SetFocalLength _) _ => True | _ => False end) -> step sample o k = Ok (o', t) -> blur o' = blur o) /\
  (* ... as in this history: f/2, focus, then stop down ... *)
  (forall f x, focal (cam o) = Fin f -> 0 < f -> diameter o = Fin (f / 2) -> x > 2 ->
     exists o', history sample [SetFocus (Fin 10); SetFstop (Fin x) true] o = Some o' /\ focus o' = Fin 10 /\ ~ blur_fresh o') /\
  (* ... and a new aperture has none, whatever the focus *)
  (forall d, exists o', history sample [SetFocus (Fin 10); SetAperture d] o = Some o' /\ focus o' = Fin 10 /\ spot (blur o') = Ok false /\ ~ blur_fresh o').
Proof.
  intros o U. split; [|split].
  - intros o' k t K E. destruct k as [k room| | t' r b | r b room| | b room| | x room|d| x | ]; try contradiction.
    + destruct k; try contradiction. cbn [step] in E. destruct (set_focal_length sample f (cam o)) as [c [] ].
      * injection E as <- <-. reflexivity.
      * unfold rebuild in E. cbn [use_ap with_cam] in E. rewrite U in E. injection E as <- <-. reflexivity.
    + cbn [step] in E. unfold rebuild in E. cbn [use_ap with_aperture] in E. rewrite U in E. injection E as <- <-. reflexivity.
  - intros f x Ef Hf Ed Hx. cbn [history]. rewrite focus_ten. cbn [step]. unfold rebuild. cbn [use_ap with_aperture]. rewrite U. eexists. split; [reflexivity|]. split; [reflexivity|].
    intros (_ & _ & E & _). cbn [blur with_aperture b_radius diameter cam] in E. rewrite Ef, Ed in E. cbn [fdiv fhalf fabs] in E. destruct (Req_EM_T x 0); [lra|]. cbn [fhalf fabs] in E. injection E as E.
    assert (0 < f / x) by (apply Rdiv_lt_0_compat; lra). rewrite Rabs_right in E by lra. assert (f / x * x = f) by (field; lra). nra.
  - intros d. cbn [history]. rewrite focus_ten. cbn [step]. eexists. split; [reflexivity|]. split; [reflexivity|]. split; [reflexivity|].
    intros E. unfold blur_fresh in E. cbn [blur with_aperture focus get_diopters] in E. lra.
Qed.

(* C138: as long as the memory for a PSF is there, no history of configuration calls crashes. *)
Definition has_room (k : op) : bool := match k with Cam _ room => room | UseAperturePsf _ _ room => room | UseAperturePsfFlag _ room => room | SetFstop _ room => room | _ => true end.
Theorem C138_no_crash : forall l, (forall k, In k l -> has_room k = true) -> exists o, history sample l (optics0 sample) = Some o /\ (use_ap o = true -> psf o <> None).
Proof.
  intros l. assert (G : forall o, (use_ap o = true -> psf o <> None) -> (forall k, In k l -> has_room k = true) -> exists o', history sample l o = Some o' /\ (use_ap o' = true -> psf o' <> None)).
  { induction l as [|k l IH]; intros o F R. { exists o. split; auto. }
    assert (X : exists o1 t, step sample o k = Ok (o1, t) /\ (use_ap o1 = true -> psf o1 <> None)).
    { pose proof (R k (or_introl eq_refl)) as RK. clear IH R.
      assert (B : forall o room, (use_ap o = true -> psf o <> None) -> exists o1 t, rebuild o room = Ok (o1, t) /\ (use_ap o1 = true -> psf o1 <> None)).
      { clear. intros o room F. unfold rebuild. destruct (use_ap o) eqn:U.
        - destruct (psf o) as [p|] eqn:P; [|exfalso; apply F; auto]. unfold make_psf. destruct room; eexists _, _; (split; [reflexivity|]); cbn; intros; congruence.
        - eexists _, _. split; [reflexivity|]. congruence. }
      destruct k as [k room| | t' r b | r b room| | [] room| | x room|d| x | ]; cbn [has_room] in RK.
      - destruct k; cbn [step];
          try (destruct (do_call _ _ _) as [c t]; eexists _, _; split; [reflexivity|exact F]).
        destruct (set_focal_length sample f (cam o)) as [c [] ]; [eexists _, _; split; [reflexivity|exact F]|]. apply B. exact F.
      - eexists _, _. split; [reflexivity|]. exact F.
      - eexists _, _. split; [reflexivity|]. cbn. congruence.
      - cbn [step]. unfold make_psf. rewrite RK. eexists _, _. split; [reflexivity|]. cbn. congruence.
      - eexists _, _. split; [reflexivity|]. cbn. congruence.
      - cbn [step]. unfold make_psf. rewrite RK. eexists _, _. split; [reflexivity|]. cbn. congruence.
      - eexists _, _. split; [reflexivity|]. cbn. congruence.
      - eexists _, _. split; [reflexivity|]. exact F.
      - cbn [step]. apply B. exact F.
      - cbn [step]. unfold focus_at. destruct (set_focus_distance d); eexists _, _; (split; [reflexivity|exact F]).
      - cbn [step]. unfold focus_at. destruct (set_diopters x); eexists _, _; (split; [reflexivity|exact F]).
      - eexists _, _. split; [reflexivity|]. exact F. }
    destruct X as (o1 & t & E & F1). cbn [history]. rewrite E. apply IH; auto. intros. apply R. right. auto. }
  apply G. intros X. discriminate.
Qed.
(* Refuted: "running out of memory is an exception and nothing more". use_aperture_psf sets its flag before it allocates: the next change of f-number or
   focal length follows a null pointer. *)
Theorem C138_refuted_crash : forall r b x f, 0 < f -> exists o, step sample (optics0 sample) (UseAperturePsf r b false) = Ok (o, true) /\ step sample o (SetFstop x true) = UB /\ step sample o (Cam (SetFocalLength (Fin f)) true) = UB.
Proof.
  intros r b x f Hf. eexists. split; [reflexivity|]. split; [reflexivity|]. cbn [step]. unfold set_focal_length, bad_length. cbn [le0 is_inf is_nan]. unfold Rleb. destruct (Rle_dec f 0); [exfalso; lra|]. reflexivity.
Qed.
(* Refuted: "use_aperture_psf(false) only stops using the aperture's PSF". It deletes a PSF the user made himself. *)
Theorem C138_refuted_own_psf : forall o t r b, exists o', history sample [SetPsf t r b; UseAperturePsfFlag false true] o = Some o' /\ psf o' = None.
Proof. intros. eexists. split; reflexivity. Qed.

(** C139 *)
(* how often a PSF is applied to the light of point sources and of everything else *)
Definition uses_stamp (s : stamp) : nat := match s with Psf _ => 1 | _ => 0 end.
Definition uses_conv (c : option psf_t) : nat := match c with Some _ => 1 | None => 0 end.
(* With convolution switched on and a PSF, the PSF is applied exactly once to every contribution; switched off, only to point sources that are in focus. *)
Theorem C139_once : forall o p blurred, spot (blur o) = Ok blurred -> psf o = Some p ->
  exists s c r, star_stamp o = Ok s /\ star_convolution o true true = Ok c /\ resolved_convolution o true = Ok r /\
    (conv o = true -> (uses_stamp s + uses_conv c = 1)%nat /\ r = Some p) /\
    (conv o = false -> r = None /\ c = None /\ (s = Psf p <-> blurred = false)) /\
    (blurred = true <-> exists a, s = Disc a).
Proof.
  intros o p bl S P. unfold star_stamp, star_convolution, resolved_convolution. rewrite S, P. cbn [andb].
  destruct bl.
  - destruct (blur o) as [a|] eqn:B; [|discriminate S]. exists (Disc a), (if conv o then Some p else None), (if conv o then Some p else None).
    split; [reflexivity|]. split; [destruct (conv o); reflexivity|]. split; [destruct (conv o); reflexivity|].
    split; [|split].
    + intros C. rewrite C. split; reflexivity.
    + intros C. rewrite C. repeat split; intros; discriminate.
    + split; intros; eauto.
  - exists (Psf p), None, (if conv o then Some p else None). split; [reflexivity|]. split; [reflexivity|]. split; [destruct (conv o); reflexivity|].
    split; [|split].
    + intros C. rewrite C. split; reflexivity.
    + intros C. rewrite C. repeat split; intros; auto.
    + split; [discriminate|]. intros (a & E). discriminate.
Qed.
(* Rendering is defined exactly when no convolution is asked for without a PSF. *)
Theorem C139_defined : forall o items blurred, spot (blur o) = Ok blurred ->
  ((exists r, resolved_convolution o true = Ok r) <-> (conv o = true -> psf o <> None)) /\
  ((exists r, star_convolution o true items = Ok r) <-> (conv o = true -> items = true -> blurred = true -> psf o <> None)) /\
  (exists s, star_stamp o = Ok s).
Proof.
  intros o items bl S. unfold star_stamp, star_convolution, resolved_convolution. rewrite S. cbn [andb]. split; [|split].
  - destruct (conv o), (psf o); split; intros H; try (intros; congruence); eauto.
    + destruct H. discriminate.
    + exfalso. apply H; auto.
  - destruct items; [|split; [congruence|eauto]]. destruct bl, (conv o), (psf o); cbn [andb]; split; intros H; try (intros; congruence); eauto.
    + destruct H. discriminate.
    + exfalso. apply H; auto.
  - destruct bl; [destruct (blur o); [eauto|discriminate]|]. destruct (psf o); eauto.
Qed.
(* Refuted: "any configuration can be rendered". Convolution without a PSF is accepted and rendering then follows a null pointer. *)
Theorem C139_refuted_null : exists o, history sample [EnableConvolution true] (optics0 sample) = Some o /\ resolved_convolution o true = UB.
Proof. eexists. split; reflexivity. Qed.

(* Point sources and everything else go out of focus together, with the same blur, when depth of field is on and the blur is up to date (square pixels,
   pinhole focal length in pixels f / pitch, spot of at least half a pixel): a pixel position lies in the spot of a star exactly when one of its rays through the aperture reaches the star. *)
Theorem C139_same_blur : forall o f pitch dm d cx cy blender (s : vec3) (p : R * R), dof o = true -> blur_fresh o -> blur o <> None ->
  focal (cam o) = Fin f -> pitch_x (cam o) = Fin pitch -> pitch_y (cam o) = Fin pitch -> diameter o = Fin dm -> focus o = Fin d ->
  0 < f -> 0 < pitch -> 0 < dm -> 0 < d -> 1 / 2 <= f * (dm / 2) / (d * pitch) -> (if blender : bool then vz s < 0 else 0 < vz s) ->
  rays_focus o = true /\ exists a fa ra pa, star_stamp o = Ok (Disc a) /\ b_focal a = Fin fa /\ b_radius a = Fin ra /\ b_px a = Fin pa /\ b_py a = Fin pa /\
   (pdist p (project_point (f / pitch) (f / pitch) cx cy None blender s) <= Rabs (b_diopters a) * fa * ra / Rmin pa pa <->
    exists ap : R * R, fst ap * fst ap + snd ap * snd ap <= (dm / 2) * (dm / 2) /\
     exists t, 0 < t /\ snd (dof_ray (pixel_to_direction (f / pitch) (f / pitch) cx cy None blender p) (focus o) ap) = vscale t s).
Proof.
  intros o f pitch dm d cx cy blender s p D F B Ef Ex Ey Ed Ec Hf Hp Hd Hc Hr Hs.
  unfold rays_focus. rewrite D, Ec. split; [reflexivity|].
  unfold blur_fresh in F. destruct (blur o) as [a|] eqn:Eb; [|congruence]. destruct F as (F1 & F2 & F3 & F4 & F5).
  rewrite Ec in F1. rewrite Ef in F2. rewrite Ed in F3. rewrite Ex in F4. rewrite Ey in F5. cbn [get_diopters fhalf] in F1, F3.
  exists a, f, (dm / 2), pitch. split.
  - unfold star_stamp, spot. rewrite Eb, F2, F3, F4, F5, F1.
    destruct (DefocusProps.C137_kernels cache0 (1 / d) f (dm / 2) pitch pitch 16 0 0) as [_ K]; [lia|lra|lra|]. destruct K as [K _].
    + rewrite Rabs_right by (apply Rle_ge, Rlt_le, Rdiv_lt_0_compat; lra). rewrite Rmin_left by lra. replace (1 / d * f * (dm / 2) / pitch) with (f * (dm / 2) / (d * pitch)) by (field; lra). exact Hr.
    + rewrite K. reflexivity.
  - do 4 (split; [assumption|]). rewrite F1. apply C137_agrees_with_rays; auto; lra.
Qed.
(* Refuted: "point sources and everything else go out of focus together". Without depth of field, focusing still blurs the stars, while every ray stays a
   pinhole ray; and with it, a new aperture sharpens the stars but not the rest. *)
Lemma default_spot : has_defocus (build cache0 (1 / 10) (5 / 100) (5 / 100 / (28 / 10) / 2) (85 / 10000000) (85 / 10000000) 16) = true.
Proof.
  destruct (DefocusProps.C137_kernels cache0 (1 / 10) (5 / 100) (5 / 100 / (28 / 10) / 2) (85 / 10000000) (85 / 10000000) 16 0 0) as [_ K]; [lia|lra|lra|]. destruct K as [K _]; auto.
  rewrite Rabs_right by lra. rewrite Rmin_left by lra. lra.
Qed.
Theorem C139_refuted_together :
  (exists o, history sample [SetFocus (Fin 10)] (optics0 sample) = Some o /\ dof o = false /\ rays_focus o = false /\ exists a, star_stamp o = Ok (Disc a)) /\
  (forall d, exists o, history sample [EnableDof true; SetFocus (Fin 10); SetAperture d] (optics0 sample) = Some o /\ rays_focus o = true /\ star_stamp o = Ok Point).
Proof.
  split.
  - cbn [history]. rewrite focus_ten. eexists. split; [reflexivity|]. split; [reflexivity|]. split; [reflexivity|].
    unfold star_stamp, spot. cbn [blur with_aperture b_focal b_radius b_px b_py b_diopters].
    change (focal (cam (optics0 sample))) with (Fin (5 / 100)). change (pitch_x (cam (optics0 sample))) with (Fin (85 / 10000000)). change (pitch_y (cam (optics0 sample))) with (Fin (85 / 10000000)).
    change (fhalf (diameter (optics0 sample))) with (Fin (5 / 100 / (28 / 10) / 2)). cbv iota beta. rewrite default_spot. eexists. reflexivity.
  - intros d. set (o1 := {| cam := cam (optics0 sample); diameter := diameter (optics0 sample); psf := None; use_ap := false; conv := false; focus := PInf; blur := None; dof := true |}).
    assert (X : exists o, history sample [SetFocus (Fin 10); SetAperture d] o1 = Some o /\ rays_focus o = true /\ star_stamp o = Ok Point).
    { cbn [history]. rewrite focus_ten. eexists. split; [reflexivity|]. split; reflexivity. }
    exact X.
Qed.
End Props.
Print Assumptions C138_psf.
Print Assumptions C138_refuted_psf.
Print Assumptions C138_blur.
Print Assumptions C138_refuted_blur.
Print Assumptions C138_no_crash.
Print Assumptions C139_same_blur.
Print Assumptions C139_refuted_together.
Print Assumptions C138_size.
Example C138_size_case : forall sample, exists o', history sample [UseAperturePsf 32 8 true; SetFstop (Fin 4) true; SetAperture (Fin 1)] (optics0 sample) = Some o' /\ use_ap o' = true /\ exists q, psf o' = Some q /\ psf_radius q = 32%Z.
Proof. intros. eexists. split; [reflexivity|]. split; [reflexivity|]. eexists. split; reflexivity. Qed.
