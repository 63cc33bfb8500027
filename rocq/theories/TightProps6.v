(* Consequences of C11, C34 and of the logger's properties: which messages each level lets through, which sensor settings are refused, and how a new node starts. *)
From Coq Require Import Reals ZArith Lra Lia List String.
From Verif Require Import Common Vec3 CameraModel.
From Verif Require LoggerModel LoggerSpec SensorModel SceneModel.
Import ListNotations.

(* the minimum level lets through itself and what is more severe: Debug < Info < Warning < Error *)
Theorem logger_levels : forall e,
  LoggerSpec.accepted LoggerModel.Debug e = true /\
  (LoggerSpec.accepted LoggerModel.Info e = true <-> LoggerModel.e_level e <> LoggerModel.Debug) /\
  (LoggerSpec.accepted LoggerModel.Warning e = true <-> LoggerModel.e_level e = LoggerModel.Warning \/ LoggerModel.e_level e = LoggerModel.Error) /\
  (LoggerSpec.accepted LoggerModel.Error e = true <-> LoggerModel.e_level e = LoggerModel.Error).
Proof. intros [st l m]. unfold LoggerSpec.accepted. cbn. destruct l; cbn; intuition (try discriminate; try congruence). Qed.
Print Assumptions logger_levels.

(* C34: exactly which sensor settings are refused *)
Import SensorModel.
Open Scope R_scope.
Theorem C34_sensor_refused : forall s,
  (forall r, (snd (sensor_do (FullWell (Fin r)) s) = true <-> r <= 0) /\ (snd (sensor_do (GainAdu (Fin r)) s) = true <-> r <= 0)) /\
  (forall r, (snd (sensor_do (ReadNoise (Fin r)) s) = true <-> r < 0) /\ (snd (sensor_do (DarkCurrent (Fin r)) s) = true <-> r < 0) /\ (snd (sensor_do (Bias (Fin r)) s) = true <-> r < 0)) /\
  (forall n, snd (sensor_do (BitDepth n) s) = true <-> (n <= 0)%Z) /\
  (forall r, snd (sensor_do (UnityDb (Fin r)) s) = false /\ snd (sensor_do (GainDb (Fin r)) s) = false) /\
  (forall a, (forall r, a <> Fin r) -> forall k, In k [FullWell a; ReadNoise a; DarkCurrent a; Bias a; GainAdu a; UnityDb a; GainDb a] -> snd (sensor_do k s) = true) /\
  (forall b, snd (sensor_do (SimulateNoise b) s) = false).
Proof.
  intros s. repeat split; intros; cbn in *; unfold set_full_well, set_gain_adu, set_read_noise, set_dark_current, set_bias, set_bit_depth, set_unity_db, set_gain_db, checked, pos_finite, nonneg_finite, finite, Rleb, Rltb in *; try reflexivity;
    try (destruct (Rle_dec _ _) in *; cbn in *; try discriminate; try reflexivity; try lra; fail); try (destruct (Rlt_dec _ _) in *; cbn in *; try discriminate; try reflexivity; try lra; fail).
  - destruct (n <=? 0)%Z eqn:E; cbn in *; [lia|discriminate].
  - replace (n <=? 0)%Z with true by lia. reflexivity.
  - destruct a; try (exfalso; eapply H; reflexivity); repeat (destruct H0 as [<-|H0]; [reflexivity|]); contradiction.
Qed.
Print Assumptions C34_sensor_refused.

(* C11: a new frame or instance is at rest at its parent's origin, unrotated and unscaled, placed by hand *)
Theorem C11_new_node : forall s p a s', SceneModel.sstep s (match a with None => SceneModel.NewFrame p | Some x => SceneModel.NewInstance p x end) = (s', Ok tt) ->
  exists n, SceneModel.get s' (List.length (SceneModel.sc_nodes s)) = Some n /\ SceneModel.n_parent n = Some p /\ SceneModel.n_asset n = a /\ SceneModel.n_children n = [] /\
    SceneModel.get_position n = Ok (0, 0, 0)%Z /\ SceneModel.get_rotation n = Ok (0, 0, 0, 1)%Z /\ SceneModel.get_velocity n = Ok (0, 0, 0)%Z /\ SceneModel.get_angular n = Ok (0, 0, 0)%Z /\
    SceneModel.get_scale n = Ok (1, 1, 1)%Z.
Proof.
  intros s p a s' H.
  assert (A : exists np, SceneModel.get s p = Some np /\ s' = SceneModel.put (SceneModel.w_nodes (SceneModel.sc_nodes s ++ [SceneModel.fresh (SceneModel.n_scene np) (Some p) a]) s) p
                (SceneModel.w_children (SceneModel.n_children np ++ [List.length (SceneModel.sc_nodes s)]) np)).
  { destruct a as [x|]; cbn [SceneModel.sstep] in H; [destruct (SceneModel.user_frame s p && SceneModel.known s x)|destruct (SceneModel.user_frame s p)]; try discriminate;
      unfold SceneModel.attach in H; destruct (SceneModel.get s p) as [np|] eqn:G; cbn in H; try discriminate; injection H as <-; eauto. }
  destruct A as (np & G & ->). unfold SceneModel.get, SceneModel.put, SceneModel.w_nodes in *. cbn in *.
  assert (L : (p < List.length (SceneModel.sc_nodes s))%nat) by (apply nth_error_Some; congruence).
  eexists. split; [rewrite nth_error_upd_neq by lia; rewrite nth_error_app2 by lia; rewrite Nat.sub_diag; reflexivity|]. repeat split.
Qed.
Print Assumptions C11_new_node.
