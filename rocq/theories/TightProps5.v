(* Consequences of C11, C72, C106, C111 and C148: what is refused is refused by an exception, never by undefined behaviour. *)
From Coq Require Import Reals ZArith Lra Lia List String.
From Verif Require Import Common Vec3 TransformModel MotionModel.
From Verif Require SpectralModel LightModel.
From Verif Require SceneModel PixelModel FitsHeaderModel.
Import ListNotations.
Open Scope R_scope.

Local Lemma bind_defined {A B} (x : outcome A) (f : A -> outcome B) : x <> UB -> (forall a, x = Ok a -> f a <> UB) -> obind x f <> UB.
Proof. destruct x; cbn; auto; congruence. Qed.
Local Lemma matrix_defined m : set_matrix m <> UB.
Proof. unfold set_matrix. destruct (Rltb _ _); discriminate. Qed.
Local Lemma axis_defined eps a x : from_axis_angle eps a x <> UB.
Proof. unfold from_axis_angle. destruct (Rltb _ _); apply matrix_defined. Qed.
Local Lemma mul_defined a b : t_mul a b <> UB.
Proof. unfold t_mul. apply bind_defined; [apply matrix_defined|discriminate]. Qed.
Local Lemma inverse_defined t : t_inverse t <> UB.
Proof. unfold t_inverse. apply bind_defined; [apply matrix_defined|discriminate]. Qed.
Local Lemma spk_defined e o t : spkezr e o t <> UB.
Proof. unfold spkezr. destruct (e_spk e o t) as [[]|]; discriminate. Qed.
Local Lemma sx_defined e o t : sxform e o t <> UB.
Proof. unfold sxform. destruct (e_sx e o t) as [[r dr]|]; [|discriminate]. cbn. apply bind_defined; [apply matrix_defined|discriminate]. Qed.
Local Lemma rotation_defined eps n epoch t dt : local_rotation_at eps n epoch t dt <> UB.
Proof.
  unfold local_rotation_at. apply bind_defined; [|discriminate]. destruct (Rltb _ _); [discriminate|]. apply bind_defined; [apply axis_defined|]. intros d _. destruct (m_body n); apply matrix_defined.
Qed.

(* C111: whatever SPICE answers or refuses, asking for the state of a node answers or throws *)
Theorem C111_defined : forall eps e chain epoch t dt, chain <> [] -> (forall n te p v, In n chain -> m_rcb n te p v <> UB) -> ssb_transform eps e chain epoch t dt <> UB.
Proof.
  intros eps e chain epoch t dt NE CB. induction chain as [|n up IH]; [congruence|].
  assert (L : forall parent, local_state eps e n parent epoch t dt <> UB).
  { intros parent. unfold local_state. apply bind_defined.
    { destruct (m_pmode n); try discriminate. apply bind_defined; [apply spk_defined|]. intros pv _. apply bind_defined; [apply inverse_defined|discriminate]. }
    intros pv _. apply bind_defined.
    { destruct (m_rmode n); try discriminate; [apply rotation_defined|]. apply bind_defined; [apply sx_defined|]. intros rw _. apply bind_defined; [apply inverse_defined|]. intros inv _. apply bind_defined; [apply matrix_defined|discriminate]. }
    intros rw _. apply bind_defined; [|discriminate]. destruct (m_rmode n); try discriminate. apply CB. left; reflexivity. }
  assert (U : match up with [] => Throws | _ :: _ => obind (ssb_transform eps e up epoch t dt) (fun parent => obind (local_state eps e n parent epoch t dt) (t_mul parent)) end <> UB).
  { destruct up as [|u r]; [discriminate|]. apply bind_defined; [apply IH; [discriminate|intros; apply CB; right; assumption]|]. intros p _. apply bind_defined; [apply L|]. intros. apply mul_defined. }
  assert (S : match up with [] => Throws | _ :: _ => obind (ssb_transform eps e up epoch t dt) (fun parent => let l := m_scb n (t - dt) in t_mul parent (T (t_pos l) (t_rot l) (t_scale (m_local n)) (t_vel l) (t_ang l))) end <> UB).
  { destruct up as [|u r]; [discriminate|]. apply bind_defined; [apply IH; [discriminate|intros; apply CB; right; assumption]|]. intros p _. apply mul_defined. }
  cbn [ssb_transform]. destruct (m_pmode n) eqn:P, (m_rmode n) eqn:Q; try exact U; try exact S.
  apply bind_defined; [apply spk_defined|]. intros pv _. apply bind_defined; [apply sx_defined|discriminate].
Qed.
Print Assumptions C111_defined.
(* C111: a node whose frame or origin SPICE does not know at that time throws *)
Theorem C111_unknown : forall eps e n up epoch t dt, m_pmode n = Spice -> m_rmode n = Spice ->
  e_spk e (m_origin n) (t - dt) = None \/ e_sx e (m_frame n) (t - dt) = None -> ssb_transform eps e (n :: up) epoch t dt = Throws.
Proof.
  intros eps e n up epoch t dt P Q H. cbn [ssb_transform]. rewrite P, Q. unfold spkezr. destruct H as [H|H]; [rewrite H; reflexivity|].
  destruct (e_spk e (m_origin n) (t - dt)) as [[p v]|]; [|reflexivity]. unfold sxform. rewrite H. reflexivity.
Qed.
Print Assumptions C111_unknown.

(* C106: calls through handles of what is no longer in the scene throw and change nothing *)
Theorem C106_gone : forall s,
  (forall i o, SceneModel.user_node s i = false -> SceneModel.get s i <> None -> SceneModel.sstep s (SceneModel.NodeOp i o) = (s, Throws)) /\
  (forall i o, SceneModel.get s i = None -> SceneModel.sstep s (SceneModel.NodeOp i o) = (s, Throws)) /\
  (forall p, SceneModel.user_frame s p = false -> SceneModel.sstep s (SceneModel.NewFrame p) = (s, Throws)) /\
  (forall p a, SceneModel.user_frame s p = false \/ SceneModel.known s a = false -> SceneModel.sstep s (SceneModel.NewInstance p a) = (s, Throws)) /\
  (forall p c, SceneModel.user_frame s p = false \/ SceneModel.user_node s c = false -> SceneModel.sstep s (SceneModel.DeleteChild p c) = (s, Throws)) /\
  (forall g, ~ In g (SceneModel.sc_geoms s) -> SceneModel.sstep s (SceneModel.AddPrimitive g) = (s, Throws) /\ SceneModel.sstep s (SceneModel.DeleteGeometry g) = (s, Throws)) /\
  (forall a, existsb (SceneModel.asset_eqb a) (SceneModel.sc_others s) = false -> SceneModel.sstep s (SceneModel.DeleteOther a) = (s, Throws)) /\
  (forall i, SceneModel.has_prim s i = false -> SceneModel.sstep s (SceneModel.DeletePrimitive i) = (s, Throws)).
Proof.
  intros s. repeat split; intros; cbn [SceneModel.sstep].
  - unfold SceneModel.user_node in H. destruct (SceneModel.get s i); [rewrite H; reflexivity|congruence].
  - rewrite H. reflexivity.
  - rewrite H. reflexivity.
  - destruct H as [H|H]; rewrite H; [reflexivity|]. rewrite andb_false_r. reflexivity.
  - destruct H as [H|H]; rewrite H; [reflexivity|]. rewrite andb_false_r. reflexivity.
  - destruct (existsb (Nat.eqb g) (SceneModel.sc_geoms s)) eqn:E; [|reflexivity]. apply existsb_exists in E. destruct E as (x & I & Q). apply Nat.eqb_eq in Q. subst. contradiction.
  - destruct (existsb (Nat.eqb g) (SceneModel.sc_geoms s)) eqn:E; [|reflexivity]. apply existsb_exists in E. destruct E as (x & I & Q). apply Nat.eqb_eq in Q. subst. contradiction.
  - rewrite H. reflexivity.
  - rewrite H. reflexivity.
Qed.
Print Assumptions C106_gone.
(* C11: the name of the SPICE origin is there exactly when the position is read from SPICE; otherwise asking throws *)
Theorem C11_no_origin : forall n, SceneModel.n_pmode n <> SceneModel.Spice -> SceneModel.get_origin n = Throws.
Proof. intros n H. unfold SceneModel.get_origin. destruct (SceneModel.n_pmode n); try reflexivity. congruence. Qed.
Print Assumptions C11_no_origin.

(* C72: an image of a sensor of any bit depth says in its file that the sensor saturates at 2^bits - 1 counts, and a saturated pixel is stored as that count when it fits *)
Theorem C72_saturate : forall bits depth, (1 <= bits)%Z -> (0 < depth)%Z ->
  PixelModel.written_saturate bits depth None = Some (IZR (2 ^ bits - 1)) /\
  ((depth = 8 \/ depth = 16 \/ depth = 32)%Z -> (bits < depth)%Z -> PixelModel.write_value bits depth (PixelModel.Fin 1) = PixelModel.Fin (IZR (2 ^ bits - 1))).
Proof.
  intros bits depth B D. assert (E : PixelModel.adc_max bits depth = IZR (2 ^ bits - 1)).
  { unfold PixelModel.adc_max. replace (0 <? bits)%Z with true by (symmetry; apply Z.ltb_lt; lia). reflexivity. }
  split.
  - unfold PixelModel.written_saturate. replace (0 <? depth)%Z with true by (symmetry; apply Z.ltb_lt; lia). rewrite E. reflexivity.
  - intros K F. unfold PixelModel.write_value. replace (0 <? depth)%Z with true by (symmetry; apply Z.ltb_lt; lia). rewrite E. f_equal.
    assert (P1 : (2 ^ 1 <= 2 ^ bits)%Z) by (apply Z.pow_le_mono_r; lia). assert (P2 : (2 ^ bits <= 2 ^ (depth - 1))%Z) by (apply Z.pow_le_mono_r; lia).
    rewrite Rmult_1_l. unfold PixelModel.clampR.
    assert (L : 1 <= IZR (2 ^ bits - 1)) by (apply IZR_le; lia).
    assert (M : IZR (2 ^ bits - 1) <= PixelModel.bitpix_max depth).
    { unfold PixelModel.bitpix_max. destruct K as [->|[->| ->]]; cbn [Z.eqb Pos.eqb]; apply IZR_le; cbn in P2; lia. }
    destruct (depth =? 8)%Z; repeat destruct (Rlt_dec _ _); try lra; reflexivity.
Qed.
Print Assumptions C72_saturate.
Example C72_saturate_one_bit : PixelModel.written_saturate 1 8 None = Some 1.
Proof. destruct (C72_saturate 1 8) as (H & _); [lia|lia|exact H]. Qed.

(* C55: the power of an emitter given wavelength by wavelength is taken as it is, and refused with an exception exactly when some value is negative *)
Theorem C55_emitter_spectral : forall power, ((exists x, In x power /\ x < 0) -> LightModel.emitter_spectral power = Throws) /\ ((forall x, In x power -> 0 <= x) -> LightModel.emitter_spectral power = Ok power).
Proof.
  intros power. unfold LightModel.emitter_spectral, SpectralModel.valid. split.
  - intros (x & I & N). destruct (forallb _ power) eqn:E; [|reflexivity]. rewrite forallb_forall in E. specialize (E x I). unfold Rltb in E. destruct (Rlt_dec x 0); [discriminate|lra].
  - intros N. replace (forallb _ power) with true; [reflexivity|]. symmetry. apply forallb_forall. intros x I. unfold Rltb. destruct (Rlt_dec x 0); [specialize (N x I); lra|reflexivity].
Qed.
Print Assumptions C55_emitter_spectral.

(* C148: a header whose number is a text that is no number throws; no header is undefined behaviour *)
Import FitsHeaderModel.
Theorem C148_bad_number : forall number show h k v, In k ["EXPTIME"; "DATAMIN"; "DATAMAX"; "SATURATE"; "CRPIX1"; "CRPIX2"; "CRVAL1"; "CRVAL2"; "CDELT1"; "CDELT2"; "EQUINOX"]%string ->
  find_key h k = Some v -> as_number number v = None -> read_metadata number show h = Throws.
Proof.
  intros number show h k v K F A.
  assert (BD : read_double number h k = Throws) by (unfold read_double; rewrite F, A; reflexivity).
  assert (BF : read_float number h k = Throws) by (unfold read_float; rewrite F, A; reflexivity).
  assert (DD : forall x, (exists o, read_double number h x = Ok o) \/ read_double number h x = Throws).
  { intros x. unfold read_double. destruct (find_key h x) as [y|]; [destruct (as_number number y)|]; eauto. }
  assert (DF : (exists o, read_float number h "EXPTIME" = Ok o) \/ read_float number h "EXPTIME" = Throws).
  { unfold read_float. destruct (find_key h "EXPTIME") as [y|]; [destruct (as_number number y)|]; eauto. }
  unfold read_metadata. cbn [In] in K.
  destruct DF as [(o0 & E0)|E0]; rewrite E0; cbn [obind]; [|reflexivity].
  repeat match goal with |- obind (read_double number h ?x) _ = Throws => let o := fresh "o" in let E := fresh "E" in destruct (DD x) as [(o & E)|E]; rewrite E; cbn [obind]; [|reflexivity] end.
  exfalso. repeat (destruct K as [<-|K]; [congruence|]). exact K.
Qed.
Print Assumptions C148_bad_number.
