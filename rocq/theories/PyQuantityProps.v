(* C147: quantities in Python. *)
From Coq Require Import Reals ZArith Lra Lia List String Bool.
From Verif Require Import Common Vec3 UnitsModel UnitsSpec UnitsProps UnitTextModel PyQuantityModel.
Import ListNotations.
Open Scope R_scope.

(** ** Specification: the quantity in SI units that an object stands for *)
Inductive measures : pyv -> dim -> R -> Prop := Measures c v : measures (PQ c v) (c_dim c) (to_si (c_scale c) v).
Definition is_class (n : string) (c : pyclass) : Prop := In (n, c) bound.

Lemma dim_eq_eq a b : dim_eq a b = true <-> a = b.
Proof.
  unfold dim_eq, exponents. destruct a, b; cbn -[Z.eqb andb]. rewrite !andb_true_iff, !Z.eqb_eq.
  split; [intros (A1 & A2 & A3 & A4 & A5 & A6 & A7 & A8 & A9 & _); subst; reflexivity | intros H; injection H; intros; subst; repeat split].
Qed.
Lemma scale_eqb_eq a b : scale_eqb a b = true <-> a = b.
Proof.
  destruct a as [n d|t], b as [n' d'|t']; cbn [scale_eqb]; try (split; congruence).
  - rewrite andb_true_iff, !Z.eqb_eq. split; [intros (-> & ->); reflexivity | intros H; injection H; auto].
  - destruct t, t'; cbn; split; congruence.
Qed.
Lemma class_eqb_eq a b : class_eqb a b = true <-> a = b.
Proof.
  unfold class_eqb. rewrite andb_true_iff, dim_eq_eq, scale_eqb_eq. destruct a, b; cbn. split; [intros (-> & ->); reflexivity | intros H; injection H; auto].
Qed.
Lemma class_eqb_refl a : class_eqb a a = true.
Proof. apply class_eqb_eq; reflexivity. Qed.

Lemma measures_intro c v d s : c_dim c = d -> to_si (c_scale c) v = s -> measures (PQ c v) d s.
Proof. intros <- <-. constructor. Qed.
Lemma measures_of_si c d x : usable (c_scale c) -> c_dim c = d -> measures (PQ c (from_si (c_scale c) x)) d x.
Proof. intros U E. apply measures_intro; auto. apply to_from; auto. Qed.
Lemma bound_ok : forallb (fun p => match c_scale (snd p) with Ratio n d => (0 <? n)%Z && (0 <? d)%Z | Tag _ => true end) bound = true.
Proof. reflexivity. Qed.
Lemma bound_positive n c : is_class n c -> positive (c_scale c) /\ usable (c_scale c).
Proof.
  intros I. pose proof (proj1 (forallb_forall _ _) bound_ok _ I) as H. cbn [snd] in H. destruct (c_scale c) as [a b|t]; cbn; auto.
  apply andb_true_iff in H. destruct H as [A B]. apply Z.ltb_lt in A, B. repeat split; lia.
Qed.

(* the module can be imported: no C++ type and no Python name is registered twice *)
Theorem C147_import : NoDup (map snd bound) /\ NoDup (map fst bound) /\ forall n c, is_class n c <-> class_named n = Some c.
Proof.
  assert (A : NoDup (map fst bound)).
  { assert (G : forall l : list string, (fix nd l := match l with [] => true | x :: r => negb (existsb (String.eqb x) r) && nd r end) l = true -> NoDup l).
    { induction l as [|x r IH]; constructor; apply andb_true_iff in H; destruct H as [X Y]; auto. intros I. apply negb_true_iff in X.
      rewrite <- not_true_iff_false in X. apply X, existsb_exists. exists x. split; auto. apply String.eqb_refl. }
    apply G. reflexivity. }
  split; [|split; auto].
  - assert (G : forall l, (fix nd l := match l with [] => true | x :: r => negb (existsb (class_eqb x) r) && nd r end) l = true -> NoDup l).
    { induction l as [|x r IH]; constructor; apply andb_true_iff in H; destruct H as [X Y]; auto. intros I. apply negb_true_iff in X.
      rewrite <- not_true_iff_false in X. apply X, existsb_exists. exists x. split; auto. apply class_eqb_refl. }
    apply G. reflexivity.
  - intros n c. unfold is_class, class_named. revert A. generalize bound. induction l as [|(m, d) r IH]; intros ND; cbn [In find fst].
    + split; [tauto|discriminate].
    + cbn [map fst] in ND. inversion ND as [|? ? N1 N2]; subst. destruct (String.eqb m n) eqn:E.
      * apply String.eqb_eq in E. subst m. cbn. split; [intros [H|H]; [congruence|]|intros H; left; congruence]. exfalso. apply N1. apply (in_map fst) in H. exact H.
      * apply String.eqb_neq in E. rewrite <- IH by auto. split; [intros [H|H]; [congruence|auto]|auto].
Qed.

(* + and - give the sum and difference of what the operands measure, in the left operand's class *)
Theorem C147_add : forall n c x d a v b, is_class n c -> measures (PQ c x) d a -> measures v d b ->
  (exists r, py_add c x v = Val (PQ c r) /\ measures (PQ c r) d (a + b)) /\ (exists r, py_sub c x v = Val (PQ c r) /\ measures (PQ c r) d (a - b)).
Proof.
  intros n c x d a v b I A B. destruct (bound_positive _ _ I) as [_ U]. inversion A; subst. inversion B; subst. unfold py_add, py_sub, of_si; cbn [si_of bind].
  split; eexists; (split; [reflexivity|]); apply measures_of_si; auto; congruence.
Qed.
(* * and / by a number scale what is measured, unless the unit has an offset *)
Theorem C147_scale_partial : forall n c x d a k, is_class n c -> linear (c_scale c) -> measures (PQ c x) d a ->
  (exists r, py_mul c x (PNum k) = Val (PQ c r) /\ measures (PQ c r) d (a * k)) /\ (exists r, py_div c x (PNum k) = Val (PQ c r) /\ measures (PQ c r) d (a / k)).
Proof.
  intros n c x d a k I L A. inversion A; subst. cbn [py_mul py_div]. split; eexists; (split; [reflexivity|]).
  - replace (to_si (c_scale c) x * k) with (to_si (c_scale c) (x * k)) by (rewrite !to_si_linear by auto; ring). constructor.
  - replace (to_si (c_scale c) x / k) with (to_si (c_scale c) (x / k)) by (rewrite !to_si_linear by auto; unfold Rdiv; ring). constructor.
Qed.
(* comparisons compare what is measured, whatever the units *)
Theorem C147_compare : forall c x d a v b, measures (PQ c x) d a -> measures v d b ->
  (exists r, py_eq c x v = Val r /\ (r = true <-> a = b)) /\ (exists r, py_lt c x v = Val r /\ (r = true <-> a < b)) /\ (exists r, py_le c x v = Val r /\ (r = true <-> a <= b)) /\
  (exists r, py_gt c x v = Val r /\ (r = true <-> a > b)) /\ (exists r, py_ge c x v = Val r /\ (r = true <-> a >= b)).
Proof.
  intros c x d a v b A B. inversion A; subst. inversion B; subst. unfold py_eq, py_lt, py_le, py_gt, py_ge; cbn [si_of bind].
  set (p := to_si (c_scale c) x). set (q := to_si (c_scale c0) v0).
  assert (LT : forall u w, Rltb u w = true <-> u < w) by (intros; destruct (Rltb u w) eqn:E; [apply Rltb_true in E|apply Rltb_false in E]; split; try lra; discriminate).
  assert (GE : forall u w, negb (Rltb u w) = true <-> w <= u) by (intros; destruct (Rltb u w) eqn:E; [apply Rltb_true in E|apply Rltb_false in E]; cbn; split; try lra; try discriminate; auto).
  split; [|split; [|split; [|split]]]; eexists; (split; [reflexivity|]).
  - unfold Reqb. destruct (Req_EM_T p q); split; auto; try discriminate; contradiction.
  - apply LT.
  - apply GE.
  - rewrite LT. split; lra.
  - rewrite GE. split; lra.
Qed.

(* +=: the sum, for units without offset *)
Theorem C147_iadd_partial : forall n c x d a m e v b, is_class n c -> is_class m e -> linear (c_scale c) -> measures (PQ c x) d a -> measures (PQ e v) d b ->
  (exists r f, py_iadd c x (PQ e v) = Val (PQ c r, f) /\ measures (PQ c r) d (a + b)) /\ (exists r f, py_isub c x (PQ e v) = Val (PQ c r, f) /\ measures (PQ c r) d (a - b)).
Proof.
  intros n c x d a m e v b I I' L A B. pose proof (C147_add _ _ _ _ _ _ _ I A B) as [(r1 & P1 & M1) (r2 & P2 & M2)]. unfold py_iadd, py_isub, load.
  destruct (class_eqb e c) eqn:E.
  - apply class_eqb_eq in E. subst e. inversion A; subst. inversion B; subst. split; eexists; eexists; (split; [reflexivity|]).
    + apply measures_intro; [auto|]. rewrite !to_si_linear by auto. ring.
    + apply measures_intro; [auto|]. rewrite !to_si_linear by auto. ring.
  - assert (N : (if registered e c then match construct c (PQ e v) with Val w => Some w | Raise _ => None end else None) = None) by (destruct (registered e c); reflexivity).
    rewrite N, P1, P2. cbn [bind]. split; eexists; eexists; (split; [reflexivity|]); auto.
Qed.
(* Celsius, Fahrenheit: x += y and x + y differ, for every pair of values: one adds the numbers, the other absolute temperatures *)
Theorem C147_refuted_celsius : forall x y, let C := Class Temperature (Tag CelsiusTag) in let F := Class Temperature (Tag FahrenheitTag) in
  py_iadd C x (PQ C y) = Val (PQ C (x + y), true) /\ py_add C x (PQ C y) = Val (PQ C (x + y + 27315 / 100)) /\
  py_iadd F x (PQ F y) = Val (PQ F (x + y), true) /\ py_add F x (PQ F y) = Val (PQ F (x + y + 45967 / 100)).
Proof.
  intros x y C F. unfold C, F. unfold py_iadd, py_add, load. rewrite !class_eqb_refl. cbn [si_of bind]. unfold of_si. cbn [c_scale to_si from_si].
  split; [reflexivity|]. split; [do 2 f_equal; lra|]. split; [reflexivity|]. do 2 f_equal. lra.
Qed.
(* y = x; x += v changes y too exactly if v has the class of x *)
Theorem C147_alias : forall n c e x y v d w s, x <> y -> is_class n c -> (vars e x < next e)%nat -> objs e (vars e x) = PQ c v ->
  exists e', run_iadd x (PQ d w) (assign y x e) = Val e' /\ (d <> c -> objs e' (vars e' y) = PQ c v) /\ (d = c -> objs e' (vars e' y) = PQ c (v + w)) /\
  (linear (c_scale c) -> measures (PQ d w) (c_dim c) s -> exists r, objs e' (vars e' x) = PQ c r /\ measures (PQ c r) (c_dim c) (to_si (c_scale c) v + s)).
Proof.
  intros n c e x y v d w s XY I LT O. destruct (bound_positive _ _ I) as [_ U].
  assert (Ex : String.eqb x y = false) by (apply String.eqb_neq; auto). assert (Ey : String.eqb y x = false) by (apply String.eqb_neq; auto).
  unfold run_iadd. unfold assign at 1 2. cbn [vars objs]. rewrite Ex, O. unfold py_iadd, load. destruct (class_eqb d c) eqn:E.
  - apply class_eqb_eq in E. subst d. cbn [bind]. eexists. split; [reflexivity|]. unfold assign; cbn [vars objs next]. rewrite Ex, String.eqb_refl, Nat.eqb_refl.
    split; [congruence|]. split; [reflexivity|]. intros L M. inversion M; subst. eexists. split; [reflexivity|].
    apply measures_intro; [auto|]. rewrite !to_si_linear by auto. ring.
  - assert (N : (if registered d c then match construct c (PQ d w) with Val w => Some w | Raise _ => None end else None) = None) by (destruct (registered d c); reflexivity).
    rewrite N. unfold py_add; cbn [si_of bind]. eexists. split; [reflexivity|]. unfold assign; cbn [vars objs next]. rewrite Ey, !String.eqb_refl.
    assert (H : Nat.eqb (vars e x) (next e) = false) by (apply Nat.eqb_neq; lia). rewrite H, O. rewrite Nat.eqb_refl.
    split; [reflexivity|]. split; [intros ->; rewrite class_eqb_refl in E; discriminate|]. intros L M. unfold of_si. eexists. split; [reflexivity|].
    assert (S : to_si (c_scale d) w = s) by (inversion M; auto). rewrite S.
    apply measures_of_si; auto.
Qed.

(* arguments declared as py::object: any unit of the dimension is accepted and read with its measure *)
Theorem C147_argument : forall n c v b, is_class n c -> measures v (c_dim c) b -> exists r, unit_from_py c v = Val (PQ c r) /\ measures (PQ c r) (c_dim c) b.
Proof.
  intros n c v b I M. destruct (bound_positive _ _ I) as [_ U]. inversion M; subst. unfold unit_from_py, of_si; cbn [si_of bind]. eexists. split; [reflexivity|].
  apply measures_of_si; auto.
Qed.
(* ... but so is every quantity of another dimension: sums, comparisons and arguments of different dimensions are accepted silently *)
Theorem C147_refuted_dimension : forall c x e y,
  (exists r, py_add c x (PQ e y) = Val (PQ c r)) /\ (exists r, unit_from_py c (PQ e y) = Val (PQ c r)) /\ (to_si (c_scale c) x = to_si (c_scale e) y -> py_eq c x (PQ e y) = Val true) /\
  (forall et, exists t, time_add et (PQ e y) = Val (PTime t)).
Proof.
  intros c x e y. split; [eexists; reflexivity|]. split; [eexists; reflexivity|]. split; [|intros et; eexists; reflexivity].
  intros H. unfold py_eq; cbn [si_of bind]. rewrite H. unfold Reqb. destruct (Req_EM_T _ _); congruence.
Qed.
Theorem C147_refuted_meter_second : exists m s k, class_named "Meter" = Some m /\ class_named "Second" = Some s /\ class_named "Kilometer" = Some k /\ c_dim m <> c_dim s /\
  forall x, py_add m x (PQ s x) = Val (PQ m (x + x)) /\ py_eq m x (PQ s x) = Val true /\ unit_from_py m (PQ s x) = Val (PQ m x) /\ py_eq s (1000 * x) (PQ k x) = Val true.
Proof.
  exists (Class Length (Ratio 1 1)), (Class Time (Ratio 1 1)), (Class Length (Ratio 1000 1)). split; [reflexivity|]. split; [reflexivity|]. split; [reflexivity|]. split; [discriminate|]. intros x. unfold py_add, py_eq, unit_from_py, of_si. cbn [si_of bind c_scale to_si from_si get_ratio].
  split; [do 2 f_equal; lra|]. split; [|split; [do 2 f_equal; lra|]].
  - f_equal. unfold Reqb. destruct (Req_EM_T _ _); [reflexivity|exfalso; apply n; lra].
  - f_equal. unfold Reqb. destruct (Req_EM_T _ _); [reflexivity|exfalso; apply n; lra].
Qed.

(* arguments declared with a unit type: only that class is accepted; every conversion that was registered is refused *)
Lemma typed_eq c v : typed_arg c v = match v with PQ e _ => if class_eqb e c then Val v else Raise TypeError | _ => Raise TypeError end.
Proof. destruct v as [e y| | | |]; try reflexivity. unfold typed_arg, load. destruct (class_eqb e c); [reflexivity|]. destruct (registered e c); reflexivity. Qed.
Theorem C147_typed : forall c v, (forall x, v = PQ c x -> typed_arg c v = Val v) /\ ((forall x, v <> PQ c x) -> typed_arg c v = Raise TypeError).
Proof.
  intros c v. rewrite typed_eq. split; [intros x ->; rewrite class_eqb_refl; reflexivity|]. intros N. destruct v as [e y| | | |]; try reflexivity.
  destruct (class_eqb e c) eqn:E; [|reflexivity]. apply class_eqb_eq in E. subst e. destruct (N y); reflexivity.
Qed.
Theorem C147_refuted_implicit : forall e c, registered e c = true -> c_dim e = c_dim c /\ c_scale c = Ratio 1 1 /\ forall x, typed_arg c (PQ e x) = Raise TypeError.
Proof.
  assert (T : forallb (fun p => match class_named (fst p) with Some t => scale_eqb (c_scale t) (Ratio 1 1) && forallb (fun n => match class_named n with
      Some f => dim_eq (c_dim f) (c_dim t) && negb (class_eqb f t) | None => true end) (snd p) | None => true end) conversions = true) by reflexivity.
  intros e c R. unfold registered in R. apply existsb_exists in R. destruct R as ((t, l) & I & R). cbn [fst snd] in R.
  pose proof (proj1 (forallb_forall _ _) T _ I) as K. cbn [fst snd] in K. destruct (class_named t) as [t'|]; [|discriminate]. apply andb_true_iff in R. destruct R as [R1 R2].
  apply class_eqb_eq in R1. subst t'. apply andb_true_iff in K. destruct K as [K1 K2]. apply scale_eqb_eq in K1. apply existsb_exists in R2. destruct R2 as (n & J & R2).
  pose proof (proj1 (forallb_forall _ _) K2 _ J) as K3. cbn beta in K3. destruct (class_named n) as [f|]; [|discriminate]. apply class_eqb_eq in R2. subst f.
  apply andb_true_iff in K3. destruct K3 as [K3 K4]. apply dim_eq_eq in K3. split; auto. split; auto. intros x. rewrite typed_eq. apply negb_true_iff in K4. rewrite K4. reflexivity.
Qed.
Theorem C147_refuted_kilometer : exists m k, class_named "Meter" = Some m /\ class_named "Kilometer" = Some k /\ registered k m = true /\ forall x, typed_arg m (PQ k x) = Raise TypeError /\ typed_arg m (PNum x) = Raise TypeError.
Proof. do 2 eexists. split; [reflexivity|]. split; [reflexivity|]. split; [reflexivity|]. intros x. split; reflexivity. Qed.

(* everything else is refused; but so are == with None and with numbers, which Python programs expect to be False *)
Theorem C147_reject : forall c x v, (forall e y, v <> PQ e y) -> (exists er, py_add c x v = Raise er) /\ (exists er, py_lt c x v = Raise er) /\ (exists er, unit_from_py c v = Raise er) /\ typed_arg c v = Raise TypeError /\
  (exists er, py_eq c x v = Raise er) /\ (exists er, py_iadd c x v = Raise er).
Proof.
  intros c x [e y| | | |] N; [destruct (N e y); reflexivity| | | |]; (split; [eexists; reflexivity|]; split; [eexists; reflexivity|]; split; [eexists; reflexivity|]; split; [reflexivity|]; split; eexists; reflexivity).
Qed.
(* two quantities cannot be multiplied or divided in Python *)
Theorem C147_no_products : forall c x e y, py_mul c x (PQ e y) = Raise TypeError /\ py_div c x (PQ e y) = Raise TypeError.
Proof. intros. split; reflexivity. Qed.

(* Time: adding a duration and subtracting times or durations *)
Theorem C147_time : forall t u v s, measures v Time s ->
  time_add t v = Val (PTime (t + s)) /\ time_sub t v = Val (PTime (t - s)) /\
  (exists r, time_sub t (PTime u) = Val r /\ measures r Time (t - u) /\ time_add u r = Val (PTime t)).
Proof.
  intros t u v s M. inversion M; subst. unfold time_add, time_sub; cbn [si_of bind]. split; [reflexivity|]. split; [do 2 f_equal; ring|].
  eexists. split; [reflexivity|]. assert (E : to_si (c_scale Second) (t - u) = t - u) by (cbn; field). split.
  - apply measures_intro; auto.
  - unfold time_add. cbn [si_of bind]. apply f_equal, f_equal. rewrite E. ring.
Qed.

(* the statements are about something: an hour and a minute *)
Example C147_example : exists h m, is_class "Hour" h /\ is_class "Minute" m /\ measures (PQ h 2) Time 7200 /\ measures (PQ m 30) Time 1800 /\ py_add h 2 (PQ m 30) = Val (PQ h (5 / 2)) /\ linear (c_scale h).
Proof.
  exists (Class Time (Ratio 3600 1)), (Class Time (Ratio 60 1)). split; [apply C147_import; reflexivity|]. split; [apply C147_import; reflexivity|].
  split; [replace 7200 with (to_si (Ratio 3600 1) 2) by (cbn; lra); apply (Measures (Class Time (Ratio 3600 1)))|].
  split; [replace 1800 with (to_si (Ratio 60 1) 30) by (cbn; lra); apply (Measures (Class Time (Ratio 60 1)))|].
  split; [|split; discriminate]. unfold py_add, of_si; cbn [si_of bind c_scale to_si from_si get_ratio]. do 2 f_equal. lra.
Qed.
