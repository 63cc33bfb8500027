(* Proofs about the sphere light. *)
From Coq Require Import Reals List Lra Lia Psatz.
From Verif Require Import Common Vec3 SpectralModel SpectralSpec SpectralProofs2 LightModel LightSpec.
From Coquelicot Require Import Coquelicot.
Import ListNotations.
Open Scope R_scope.

Lemma stored_pos r : 0 < stored_radius r.
Proof. unfold stored_radius. assert (0 < / 10 ^ 5) by (apply Rinv_0_lt_compat; lra). apply (Rlt_le_trans _ _ _ H). apply Rmax_r. Qed.
Lemma dist_dot a b : dist a b = sqrt (dot (vsub a b) (vsub a b)).
Proof. unfold dist, dot, vsub; cbn. f_equal. ring. Qed.
Lemma sq_eq_nonneg a b : 0 <= a -> 0 <= b -> a * a = b * b -> a = b.
Proof. intros. nra. Qed.
Lemma sqrt_sq x : 0 <= x -> sqrt x * sqrt x = x.
Proof. apply sqrt_sqrt. Qed.
Lemma vlen_sq v : vlen v * vlen v = dot v v.
Proof. unfold vlen. apply sqrt_sqrt, dot_self_nonneg. Qed.
Lemma vlen_nonneg v : 0 <= vlen v.
Proof. apply sqrt_pos. Qed.
Lemma dist_le_sq a b r : 0 <= r -> (dist a b <= r <-> dot (vsub a b) (vsub a b) <= r * r).
Proof.
  intros Hr. rewrite dist_dot. pose proof (dot_self_nonneg (vsub a b)) as HD. pose proof (sqrt_pos (dot (vsub a b) (vsub a b))) as HS. pose proof (sqrt_sq _ HD) as HQ.
  set (q := dot _ _) in *. set (s := sqrt q) in *. clearbody q s. split; intros; nra.
Qed.
Lemma normalize_unit v : 0 < dot v v -> dot (normalize v) (normalize v) = 1.
Proof.
  intros H. unfold normalize. pose proof (vlen_sq v) as Q. pose proof (vlen_nonneg v).
  assert (vlen v <> 0) by nra. unfold dot, vscale in *; cbn.
  transitivity ((vx v * vx v + vy v * vy v + vz v * vz v) * (/ vlen v * / vlen v)); [ring|]. rewrite <- Q. field. auto.
Qed.
Lemma dot_comm a b : dot a b = dot b a.
Proof. unfold dot; ring. Qed.
Lemma dot_scale_l k a b : dot (vscale k a) b = k * dot a b.
Proof. unfold dot, vscale; cbn; ring. Qed.
Lemma dot_add_l a b c : dot (vadd a b) c = dot a c + dot b c.
Proof. unfold dot, vadd; cbn; ring. Qed.
Lemma cross_self_l a b : dot (cross a b) a = 0.
Proof. unfold dot, cross; cbn; ring. Qed.
Lemma cross_self_r a b : dot (cross a b) b = 0.
Proof. unfold dot, cross; cbn; ring. Qed.
Lemma cross_len a b : dot (cross a b) (cross a b) = dot a a * dot b b - dot a b * dot a b.
Proof. unfold dot, cross; cbn; ring. Qed.

Lemma frame_u w : dot w w = 1 -> dot (light_frame_u w) (light_frame_u w) = 1 /\ dot (light_frame_u w) w = 0.
Proof.
  intros H. unfold light_frame_u. destruct (Rltb _ _) eqn:E; rb.
  - split.
    + apply normalize_unit. unfold dot in *; cbn. assert (vz w * vz w < 1) by (unfold Rabs in E; destruct (Rcase_abs _); nra). nra.
    + unfold normalize. rewrite dot_scale_l. unfold dot; cbn. ring.
  - split.
    + apply normalize_unit. unfold dot in *; cbn. assert (vz w * vz w > 0) by (unfold Rabs in E; destruct (Rcase_abs _); nra). nra.
    + unfold normalize. rewrite dot_scale_l. unfold dot; cbn. ring.
Qed.
(* a direction built in an orthonormal frame *)
Lemma frame_dir u v w a b c : dot u u = 1 -> dot v v = 1 -> dot w w = 1 -> dot u v = 0 -> dot u w = 0 -> dot v w = 0 ->
  let x := vadd (vadd (vscale a u) (vscale b v)) (vscale c w) in
  dot x x = a * a + b * b + c * c /\ dot x w = c /\ dot x u = a /\ dot x v = b.
Proof.
  intros Hu Hv Hw Huv Huw Hvw x. subst x.
  repeat rewrite ?dot_add_l, ?dot_scale_l, ?dot_add, ?dot_scale. rewrite (dot_comm v u), (dot_comm w u), (dot_comm w v), Hu, Hv, Hw, Huv, Huw, Hvw. repeat split; ring.
Qed.

Section Cone.
  Variables r d2 : R.
  Hypothesis Hr : 0 < r.
  Hypothesis Hd : r * r < d2.
  Lemma ratio_bounds : 0 < r * r / d2 < 1.
  Proof. assert (0 < d2) by nra. split; [apply Rdiv_lt_0_compat; nra|]. apply (Rmult_lt_reg_r d2); auto. unfold Rdiv. rewrite Rmult_assoc, Rinv_l by lra. lra. Qed.
  Lemma cone_cos_sq : cone_cos r d2 * cone_cos r d2 = 1 - r * r / d2.
  Proof. pose proof ratio_bounds. unfold cone_cos. rewrite Rmax_right by lra. apply sqrt_sqrt. lra. Qed.
  Lemma cone_cos_bounds : 0 < cone_cos r d2 < 1.
  Proof. pose proof ratio_bounds. pose proof cone_cos_sq as Q. assert (0 <= cone_cos r d2) by apply sqrt_pos. set (c := cone_cos r d2) in *. clearbody c. split; nra. Qed.
  Lemma cone_cos_seen : cone_cos r d2 = seen_cos r (sqrt d2).
  Proof.
    unfold cone_cos, seen_cos. pose proof ratio_bounds. rewrite Rmax_right by lra. f_equal. assert (0 < d2) by nra.
    assert (E: (r / sqrt d2) ^ 2 = r * r / (sqrt d2 * sqrt d2)) by (field; apply Rgt_not_eq, sqrt_lt_R0; lra). rewrite E, sqrt_sqrt by lra. reflexivity.
  Qed.
  Lemma cone_sa_pos : 0 < cone_solid_angle r d2.
  Proof.
    pose proof ratio_bounds. pose proof cone_cos_bounds. pose proof PI_RGT_0. unfold cone_solid_angle. cbv zeta. destruct (Rltb _ _) eqn:E; rb; nra.
  Qed.
  Lemma cone_sa_close : Rabs (1 / cone_solid_angle r d2 * cap_solid_angle (cone_cos r d2) - 1) <= / 10 ^ 8.
  Proof.
    pose proof ratio_bounds as RB. pose proof cone_cos_bounds as CB. pose proof cone_cos_sq as CQ. pose proof PI_RGT_0 as P. pose proof PI_4. 
    unfold cone_solid_angle, cap_solid_angle. cbv zeta. set (c := cone_cos r d2) in *. clearbody c. set (q := r * r / d2) in *. clearbody q.
    destruct (Rltb _ _) eqn:E; rb.
    - assert (Hq: q = (1 - c) * (1 + c)) by lra. subst q.
      replace (1 / (PI * ((1 - c) * (1 + c))) * (2 * PI * (1 - c)) - 1) with ((1 - c) / (1 + c)) by (field; repeat split; lra).
      assert (HPI: 3 < PI) by (pose proof PI2_3_2; unfold PI2 in *; lra).
      assert (1 - c < / 10 ^ 7 / 6). { assert (6 * (1 - c) < / 10 ^ 7) by nra. lra. }
      rewrite Rabs_right by (apply Rle_ge, Rlt_le, Rdiv_lt_0_compat; lra).
      apply (Rmult_le_reg_r (1 + c)); [lra|]. unfold Rdiv at 1. rewrite Rmult_assoc, Rinv_l by lra. lra.
    - replace (1 / (2 * PI * (1 - c)) * (2 * PI * (1 - c)) - 1) with 0 by (field; repeat split; lra). rewrite Rabs_R0. lra.
  Qed.
End Cone.

Section Sample.
  Variable l : sphere_light.
  Variables center p : vec3.
  Hypothesis Hr : 0 < sl_radius l.
  Hypothesis Hout : sl_radius l < dist center p.
  Let wc := vsub center p.
  Let d2 := dot wc wc.
  Let d := sqrt d2.
  Let w := vscale (/ d) wc.
  Lemma out_sq : sl_radius l * sl_radius l < d2.
  Proof. rewrite dist_dot in Hout. pose proof (sqrt_sq _ (dot_self_nonneg (vsub center p))) as Q. subst d2 wc. set (s := sqrt _) in *. set (q := dot _ _) in *. clearbody s q. nra. Qed.
  Lemma d_sq : d * d = d2. Proof. apply sqrt_sqrt, dot_self_nonneg. Qed.
  Lemma d_pos : 0 < d. Proof. pose proof out_sq. apply sqrt_lt_R0. nra. Qed.
  Lemma w_unit : dot w w = 1.
  Proof. unfold w. rewrite dot_scale_l, dot_scale. fold d2. rewrite <- d_sq. pose proof d_pos. field. lra. Qed.
  Lemma wc_w x : dot wc x = d * dot w x.
  Proof. unfold w. rewrite dot_scale_l. pose proof d_pos. field. lra. Qed.
  Lemma w_normalize : normalize wc = w.
  Proof. reflexivity. Qed.

  Lemma sample_facts u1 u2 : 0 <= u1 <= 1 ->
    let c := cone_cos (sl_radius l) d2 in
    let ct := (1 - u1) + u1 * c in
    let u := light_frame_u w in
    exists wi,
    sample_li l center p u1 u2 = Some (LS wi (sl_radiance l) (d * ct - sqrt (d * ct * (d * ct) - d2 + sl_radius l * sl_radius l)) (1 / cone_solid_angle (sl_radius l) d2)) /\
    dot wi wi = 1 /\ dot wi w = ct /\ c <= ct <= 1 /\ 0 <= d * ct * (d * ct) - d2 + sl_radius l * sl_radius l /\ 0 < d * ct /\
    dot wi u = sqrt (1 - ct * ct) * cos (2 * PI * u2) /\ dot wi (cross w u) = sqrt (1 - ct * ct) * sin (2 * PI * u2).
  Proof.
    intros Hu c ct u. pose proof (cone_cos_bounds (sl_radius l) d2 Hr out_sq) as CB. pose proof (cone_cos_sq (sl_radius l) d2 Hr out_sq) as CQ. fold c in CB, CQ.
    assert (Hct: c <= ct <= 1) by (subst ct; nra).
    pose proof out_sq as HO. pose proof d_pos as HD. pose proof d_sq as HDQ.
    destruct (frame_u w w_unit) as (U1 & U2). fold u in U1, U2.
    set (v := cross w u). assert (V1: dot v v = 1) by (unfold v; rewrite cross_len, w_unit, U1, (dot_comm w u), U2; ring).
    assert (V2: dot u v = 0) by (rewrite dot_comm; apply cross_self_r). assert (V3': dot v w = 0) by apply cross_self_l.
    set (st := sqrt (Rmax 0 (1 - ct * ct))).
    assert (ST: st * st = 1 - ct * ct). { unfold st. rewrite Rmax_right by nra. apply sqrt_sqrt. nra. }
    set (phi := u2 * 2 * PI).
    destruct (frame_dir u v w (st * cos phi) (st * sin phi) ct U1 V1 w_unit V2 U2 V3') as (F1 & F2 & F3 & F4). cbv zeta in *.
    set (wi := vadd (vadd (vscale (st * cos phi) u) (vscale (st * sin phi) v)) (vscale ct w)) in *.
    exists wi.
    assert (HB: dot wc wi = d * ct) by (rewrite wc_w, dot_comm, F2; reflexivity).
    assert (HDI: 0 <= d * ct * (d * ct) - d2 + sl_radius l * sl_radius l).
    { assert (HC: d2 * (c * c) = d2 - sl_radius l * sl_radius l) by (rewrite CQ; field; nra).
      assert (d2 * (c * c) <= d2 * (ct * ct)) by (apply Rmult_le_compat_l; nra). replace (d * ct * (d * ct)) with (d2 * (ct * ct)) by (rewrite <- HDQ; ring). lra. }
    split; [|split; [|split; [|split; [|split; [|split; [|split]]]]]]; auto.
    - unfold sample_li. fold wc. fold d2. fold d.
      assert (HN: Rleb d (sl_radius l) = false) by (apply Rleb_false; unfold d, d2, wc; rewrite <- dist_dot; auto). rewrite HN.
      cbv zeta. fold c. fold ct. fold w. fold u. fold v. fold st. fold phi. fold wi. rewrite HB. rewrite (Rmax_right 0 _ HDI). reflexivity.
    - rewrite F1. pose proof (sin2_cos2 phi) as SC. unfold Rsqr in SC.
      transitivity (st * st * (sin phi * sin phi + cos phi * cos phi) + ct * ct); [ring|]. rewrite SC, ST. ring.
    - nra.
    - rewrite F3. unfold st. rewrite Rmax_right by nra. unfold phi. do 2 f_equal. ring.
    - rewrite F4. unfold st. rewrite Rmax_right by nra. unfold phi. do 2 f_equal. ring.
  Qed.

  Lemma along_dist_sq wi t : dot wi wi = 1 -> dot (vsub (along p wi t) center) (vsub (along p wi t) center) = t * t - 2 * t * dot wc wi + d2.
  Proof.
    intros H. unfold along, d2, wc. transitivity (t * t * dot wi wi - 2 * t * dot (vsub center p) wi + dot (vsub center p) (vsub center p)); [|rewrite H; ring].
    unfold dot, vsub, vadd, vscale; cbn; ring.
  Qed.
  Lemma hit_iff wi : dot wi wi = 1 ->
    (cone_cos (sl_radius l) d2 <= dot wi w <-> exists t, 0 <= t /\ dist (along p wi t) center <= sl_radius l).
  Proof.
    intros HU. pose proof (cone_cos_bounds (sl_radius l) d2 Hr out_sq) as CB. pose proof (cone_cos_sq (sl_radius l) d2 Hr out_sq) as CQ.
    pose proof out_sq as HO. pose proof d_pos as HD. pose proof d_sq as HDQ.
    set (c := cone_cos (sl_radius l) d2) in *. set (r := sl_radius l) in *.
    assert (HC: d2 * (c * c) = d2 - r * r) by (rewrite CQ; field; nra).
    set (b := dot wi w). assert (HB: dot wc wi = d * b) by (rewrite wc_w, dot_comm; reflexivity).
    split.
    - intros Hb. exists (d * b). split; [nra|]. apply dist_le_sq; [unfold r in *; lra|]. rewrite along_dist_sq, HB by auto. fold r.
      assert (d2 * (c * c) <= d2 * (b * b)) by (apply Rmult_le_compat_l; nra). replace (d * b * (d * b) - 2 * (d * b) * (d * b) + d2) with (d2 - d2 * (b * b)) by (rewrite <- HDQ; ring). lra.
    - intros (t & Ht & Hi). apply dist_le_sq in Hi; [|unfold r in *; lra]. rewrite along_dist_sq, HB in Hi by auto. fold r in Hi.
      assert (HBP: 0 < b) by (destruct (Rlt_dec 0 b); auto; exfalso; assert (H0: 0 <= t * d * (- b)) by (apply Rmult_le_pos; [nra|lra]); assert (0 <= t * t) by nra; nra).
      assert (HQ: d2 * (c * c) <= d2 * (b * b)). { replace (d2 * (b * b)) with ((d * b) * (d * b)) by (rewrite <- HDQ; ring). pose proof (Rle_0_sqr (t - d * b)) as SQ. unfold Rsqr in SQ. assert (EQ: (t - d * b) * (t - d * b) = t * t - 2 * t * (d * b) + d * b * (d * b)) by ring. lra. }
      assert (c * c <= b * b) by (apply Rmult_le_reg_l with d2; [nra|auto]). nra.
  Qed.
  Lemma pdf_cases wi : pdf_li l center p wi = if Rltb (dot wi w) (cone_cos (sl_radius l) d2) then 0 else 1 / cone_solid_angle (sl_radius l) d2.
  Proof.
    unfold pdf_li. fold wc. fold d2. rewrite (proj2 (Rleb_false _ _) out_sq). rewrite w_normalize. reflexivity.
  Qed.
End Sample.
