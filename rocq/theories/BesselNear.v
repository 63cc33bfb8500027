(* The code's Bessel function below 8 against the series: exact integer polynomials. *)
From Verif Require Import Common Vec3 AiryModel PolyCheck BesselSeries.
From Coq Require Import Reals Lra Lia List ZArith Psatz.
From Coquelicot Require Import Coquelicot.
Import ListNotations.
Open Scope R_scope.

(* 2 J1(x) / x = jg(x^2 / 4): the code's fraction and the scaled polynomials of the difference to the first 18 terms (numerators over near_scale) *)
Definition num (y : R) : R := 72362614232 + y * (-7895059235 + y * (2423968531 / 10 + y * (-2972611439 / 1000 + y * (1570448260 / 100000 + y * (-3016036606 / 100000000))))).
Definition den (y : R) : R := 144725228442 + y * (2300535178 + y * (1858330474 / 100 + y * (9944743394 / 100000 + y * (3769991397 / 10000000 + y * 1)))).
Definition near_scale : Z := 48903439026807016067776408442634240000000000000000%Z.
Definition near_plus : list Z := [11692217735720849696877038885995760034376581120000000; -4367037847026829302064565593263161363839057920000000; 3289691550726691014880506772431687861735417446400000; -926676573960448928380131670388656683635307026841600; 133922358650805201429525434482437717891259922644992; -11387682695105354722341036787705969052221440000000; 614807537304789905732515213360723132416000000000; -22029787285304685967082524720509222912000000000; 537029765002980250823109354935707238400000000; -9012888024221844523981993124844011520000000; 104618184947946313851420608707952640000000; -844394543986931103507127059087360000000; 4827649261724849780943036088320000000; -20333062451716642855575355392000000; 65624087147477817377606860800000; -167754302117585564955033600000; 348785495962597545926400000; -602498323394128504800000; 879887951160381920000; -1099411995092992000; 1212140608684000; -1058751075375; 1250000000]%Z.
Definition near_minus : list Z := [9540466418541340989894876914519853474376581120000000; 4704550092445872178507958172845490156160942080000000; -3286965188195883523454234075954871319064582553600000; 926691163925015100005990256527480551615892973158400; -133922303341141876996574548055089093404484077355008; 11387682841815671802762084991035194380124160000000; -614807537304789905732515213360723132416000000000; 22029787285304685967082524720509222912000000000; -537029765002980250823109354935707238400000000; 9012888024221844523981993124844011520000000; -104618184947946313851420608707952640000000; 844394543986931103507127059087360000000; -4827649261724849780943036088320000000; 20333062451716642855575355392000000; -65624087147477817377606860800000; 167754302117585564955033600000; -348785495962597545926400000; 602498323394128504800000; -879887951160381920000; 1099411995092992000; -1212140608684000; 1058751075375; -1250000000]%Z.
Definition bound_scale : Z := 50000000000000000%Z.
Definition bound_plus : list Z := [14472522852536261422100000000; -674479164484973241100000000; 25168850547929165237000000; -292288772198027628303000; 1589298217003849956985; -2966036605950000000]%Z.
Definition bound_minus : list Z := [6136261422100000000; 904532682515026758900000000; -23310520072070834763000000; 302233515601972371697000; -1551598302996150043015; 3066036606050000000]%Z.
Definition dens18 : list R := map IZR [2; 6; 12; 20; 30; 42; 56; 72; 90; 110; 132; 156; 182; 210; 240; 272; 306; 342]%Z.
Lemma near_plus_ok y : peval near_plus y = IZR near_scale * (15 / 10 ^ 10 * den y + (2 * num y - nest dens18 (y / 4) * den y)).
Proof. unfold near_plus, near_scale, dens18, den, num. cbn [map nest peval]. field. Qed.
Lemma near_minus_ok y : peval near_minus y = IZR near_scale * (15 / 10 ^ 10 * den y - (2 * num y - nest dens18 (y / 4) * den y)).
Proof. unfold near_minus, near_scale, dens18, den, num. cbn [map nest peval]. field. Qed.
Lemma bound_plus_ok y : peval bound_plus y = IZR bound_scale * ((1 + 1 / 10 ^ 9) * den y + 2 * num y).
Proof. unfold bound_plus, bound_scale, den, num. cbn [peval]. field. Qed.
Lemma bound_minus_ok y : peval bound_minus y = IZR bound_scale * ((1 + 1 / 10 ^ 9) * den y - 2 * num y).
Proof. unfold bound_minus, bound_scale, den, num. cbn [peval]. field. Qed.
Lemma near_checked : check_from near_plus 2 2 16 = true /\ check_from near_minus 2 2 16 = true /\ check_from bound_plus 4 4 8 = true /\ check_from bound_minus 4 4 8 = true.
Proof. repeat split; reflexivity. Qed.
Lemma den_ge y : 0 <= y -> 144725228442 <= den y.
Proof. intros Y. unfold den. assert (0 <= y * y) by nra. assert (0 <= y * y * y) by nra. assert (0 <= y * y * y * y) by nra. assert (0 <= y * y * y * y * y) by nra. nra. Qed.
Lemma near_poly y : 0 <= y < 64 -> Rabs (2 * num y / den y - nest dens18 (y / 4)) <= 15 / 10 ^ 10 /\ Rabs (2 * num y / den y) <= 1 + 1 / 10 ^ 9.
Proof.
  intros Y. destruct near_checked as (C1 & C2 & C3 & C4). pose proof (den_ge y ltac:(lra)) as D.
  pose proof (check_from_pos near_plus 2 16 ltac:(lia) 2 C1 y ltac:(lia) ltac:(cbn; lra)) as P1. pose proof (check_from_pos near_minus 2 16 ltac:(lia) 2 C2 y ltac:(lia) ltac:(cbn; lra)) as P2.
  pose proof (check_from_pos bound_plus 4 8 ltac:(lia) 4 C3 y ltac:(lia) ltac:(cbn; lra)) as P3. pose proof (check_from_pos bound_minus 4 8 ltac:(lia) 4 C4 y ltac:(lia) ltac:(cbn; lra)) as P4.
  rewrite near_plus_ok in P1. rewrite near_minus_ok in P2. rewrite bound_plus_ok in P3. rewrite bound_minus_ok in P4.
  assert (PM : forall s a, 0 < IZR s -> 0 < IZR s * a -> 0 < a) by (intros s a S A; apply (Rmult_lt_reg_l (IZR s)); lra).
  apply PM in P1; [|apply IZR_lt; reflexivity]. apply PM in P2; [|apply IZR_lt; reflexivity]. apply PM in P3; [|apply IZR_lt; reflexivity]. apply PM in P4; [|apply IZR_lt; reflexivity].
  set (q := nest dens18 (y / 4)) in *. set (nn := num y) in *. set (dd := den y) in *.
  assert (I : 0 < / dd) by (apply Rinv_0_lt_compat; lra). assert (DI : dd * / dd = 1) by (apply Rinv_r; lra).
  split; apply Rabs_le; split; apply (Rmult_le_reg_r dd); try lra; unfold Rdiv; try (replace ((2 * nn * / dd - q) * dd) with (2 * nn * (dd * / dd) - q * dd) by ring); try (replace (2 * nn * / dd * dd) with (2 * nn * (dd * / dd)) by ring); rewrite DI; lra.
Qed.
Lemma ja0 : ja 0 = 1.
Proof. unfold ja. cbn. field. Qed.
Lemma ja_18 : Rabs (ja 18) <= 17 / 10 ^ 34.
Proof. rewrite !ja_S, ja0. cbn [INR]. apply Rabs_le. lra. Qed.
Lemma jg_nest u : 0 <= u <= 16 -> Rabs (jg u - nest dens18 u) <= 2 / 10 ^ 11.
Proof.
  intros U. set (c := fun k => ja k * u ^ k). set (r := fun k => INR (S k) * INR (S (S k))).
  assert (RP : forall k, 0 < r k) by (intros k; apply Rmult_lt_0_compat; apply lt_0_INR; lia).
  assert (C : forall k, c (S k) = - c k * u / r k). { intros k. unfold c, r. rewrite ja_S, <- tech_pow_Rmult. field. split; apply not_0_INR; lia. }
  assert (T : forall k, (18 <= k)%nat -> 2 * Rabs u <= r k). { intros k K. rewrite Rabs_pos_eq by lra. unfold r. apply le_INR in K. replace (INR 18) with 18 in K by (cbn; lra). rewrite !S_INR. nra. }
  destruct (alt_series c r u 18 RP C T) as (_ & B). replace (Series c) with (jg u) in B by reflexivity.
  replace (map r (seq 0 18)) with dens18 in B. 2:{ unfold dens18, r. cbn [map seq INR]. repeat (apply f_equal2; [lra|]). reflexivity. }
  unfold c in B at 1. rewrite ja0 in B. cbn [pow] in B. rewrite !Rmult_1_l in B. eapply Rle_trans; [exact B|]. unfold c. rewrite Rabs_mult, (Rabs_pos_eq (u ^ 18)) by (apply pow_le; lra).
  pose proof ja_18 as J. pose proof (pow_incr u 16 18 U) as PI. assert (E : 16 ^ 18 = 4722366482869645213696) by (cbn; lra). rewrite E in PI. pose proof (Rabs_pos (ja 18)). assert (0 <= u ^ 18) by (apply pow_le; lra).
  apply Rle_trans with (2 * (17 / 10 ^ 34 * 4722366482869645213696)); [|lra]. apply Rmult_le_compat_l; [lra|]. apply Rmult_le_compat; auto.
Qed.
Theorem near_accuracy x : 0 <= x < 8 -> Rabs (bessel_near x - J1 x) <= x * (8 / 10 ^ 10).
Proof.
  intros X. assert (Y : 0 <= x * x < 64) by nra. destruct (near_poly _ Y) as (P & _). pose proof (jg_nest (x * x / 4) ltac:(lra)) as G. pose proof (den_ge (x * x) ltac:(lra)) as D.
  replace (bessel_near x - J1 x) with (x / 2 * (2 * num (x * x) / den (x * x) - jg (x * x / 4))). 2:{ unfold bessel_near, J1. cbv zeta. fold (num (x * x)) (den (x * x)). field. lra. }
  rewrite Rabs_mult, (Rabs_pos_eq (x / 2)) by lra. apply Rle_trans with (x / 2 * (16 / 10 ^ 10)); [|lra]. apply Rmult_le_compat_l; [lra|].
  replace (2 * num (x * x) / den (x * x) - jg (x * x / 4)) with (2 * num (x * x) / den (x * x) - nest dens18 (x * x / 4) - (jg (x * x / 4) - nest dens18 (x * x / 4))) by ring. eapply Rle_trans; [apply Rabs_triang|]. rewrite Rabs_Ropp. lra.
Qed.
