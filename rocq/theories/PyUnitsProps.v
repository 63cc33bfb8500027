(* C147: what the units of the Python module measure. *)
From Coq Require Import Reals ZArith Lra Lia List String Bool.
From Verif Require Import Common Vec3 UnitsModel UnitsSpec UnitsProps UnitTextModel PyQuantityModel PyQuantityProps.
Import ListNotations.
Open Scope R_scope.

(** ** Specification: the SI dimension of each unit: exponents of metre, kilogram, second, ampere, kelvin, mole, candela, radian, steradian *)
Definition si_dimensions : list (list string * list Z) := [
  (["Kilometer"; "Meter"; "Centimeter"; "Millimeter"; "Micrometer"; "Nanometer"; "AstronomicalUnit"; "Foot"; "Yard"; "Mile"], [1; 0; 0; 0; 0; 0; 0; 0; 0]);
  (["Kilogram"; "Gram"; "Milligram"], [0; 1; 0; 0; 0; 0; 0; 0; 0]);
  (["SiderealDay"; "Day"; "Hour"; "Minute"; "Second"; "Millisecond"; "Microsecond"; "Nanosecond"; "Femtosecond"], [0; 0; 1; 0; 0; 0; 0; 0; 0]);
  (["Ampere"], [0; 0; 0; 1; 0; 0; 0; 0; 0]);
  (["Kelvin"; "Celsius"; "Fahrenheit"], [0; 0; 0; 0; 1; 0; 0; 0; 0]);
  (["Mole"], [0; 0; 0; 0; 0; 1; 0; 0; 0]);
  (["Candela"], [0; 0; 0; 0; 0; 0; 1; 0; 0]);
  (["Radian"; "Degree"; "Arcminute"; "Arcsecond"], [0; 0; 0; 0; 0; 0; 0; 1; 0]);
  (["Steradian"; "SquareDegree"], [0; 0; 0; 0; 0; 0; 0; 0; 1]);
  (["Diopter"; "Millidiopter"; "Microdiopter"], [-1; 0; 0; 0; 0; 0; 0; 0; 0]);
  (["MetersPerSecond"; "KilometersPerSecond"; "MilesPerHour"; "KilometersPerHour"], [1; 0; -1; 0; 0; 0; 0; 0; 0]);
  (["RadiansPerSecond"; "DegreesPerSecond"], [0; 0; -1; 0; 0; 0; 0; 1; 0]);
  (["Hertz"; "Kilohertz"; "Megahertz"; "Gigahertz"; "Terahertz"], [0; 0; -1; 0; 0; 0; 0; 0; 0]);
  (["Newton"; "Kilonewton"], [1; 1; -2; 0; 0; 0; 0; 0; 0]);
  (["Pascal"; "Kilopascal"], [-1; 1; -2; 0; 0; 0; 0; 0; 0]);
  (["Joule"; "Kilojoule"; "Megajoule"; "ElectronVolt"], [2; 1; -2; 0; 0; 0; 0; 0; 0]);
  (["SquareMeter"; "SquareCentimeter"; "SquareMillimeter"], [2; 0; 0; 0; 0; 0; 0; 0; 0]);
  (["Milliwatt"; "Watt"; "Kilowatt"; "Megawatt"; "Gigawatt"], [2; 1; -3; 0; 0; 0; 0; 0; 0]);
  (["Coulomb"], [0; 0; 1; 1; 0; 0; 0; 0; 0]);
  (["WattsPerMeterSquaredSteradian"], [0; 1; -3; 0; 0; 0; 0; 0; -1]);
  (["WattsPerMeterSquared"], [0; 1; -3; 0; 0; 0; 0; 0; 0]);
  (["WattsPerSteradian"], [2; 1; -3; 0; 0; 0; 0; 0; -1]);
  (["Lumen"], [0; 0; 0; 0; 0; 0; 1; 0; 1])]%string%Z.
Definition has_dimension (n : string) (e : list Z) : Prop := exists l, In (l, e) si_dimensions /\ In n l.

(* every unit has the dimension its name says *)
Theorem C147_dimensions : forall n c, is_class n c <-> exists e, has_dimension n e /\ class_named n = Some c /\ exponents (c_dim c) = e.
Proof.
  intros n c. rewrite (proj2 (proj2 C147_import)). split; [|intros (e & _ & H & _); exact H]. intros H. exists (exponents (c_dim c)). split; [|auto].
  assert (A : forallb (fun p => existsb (fun q => existsb (String.eqb (fst p)) (fst q) && if list_eq_dec Z.eq_dec (exponents (c_dim (snd p))) (snd q) then true else false) si_dimensions) bound = true) by (vm_compute; reflexivity).
  apply (proj1 (forallb_forall _ _)) with (x := (n, c)) in A; [|apply (proj2 (proj2 C147_import)); auto]. cbn [fst snd] in A.
  apply existsb_exists in A. destruct A as ((l & e) & I & B). apply andb_true_iff in B. destruct B as [B1 B2]. apply existsb_exists in B1. destruct B1 as (m & J & E). apply String.eqb_eq in E. subst m.
  cbn [fst snd] in *. destruct (list_eq_dec _ _ e); [|discriminate]. subst e. exists l. auto.
Qed.
Print Assumptions C147_dimensions.
(* ... and the size of the C++ unit of the same name (units.hpp's list, with the SI units that have no other size) *)
Definition coherent : list (string * uscale) := map (fun n => (n, Ratio 1 1)) ["WattsPerMeterSquaredSteradian"; "WattsPerMeterSquared"; "WattsPerSteradian"; "Lumen"]%string.
Lemma same_ratio a b n d x : (0 < b)%Z -> (0 < d)%Z -> (a * d = n * b)%Z -> to_si (Ratio a b) x = to_si (Ratio n d) x.
Proof.
  intros B D E. cbn [to_si]. apply (f_equal IZR) in E. rewrite !mult_IZR in E. assert (IZR b <> 0 /\ IZR d <> 0) as [B' D'] by (split; apply not_0_IZR; lia).
  assert (Q : IZR a / IZR b = IZR n / IZR d). { apply (Rmult_eq_reg_r (IZR b * IZR d)); [|apply Rmult_integral_contrapositive; auto]. replace (IZR a / IZR b * (IZR b * IZR d)) with (IZR a * IZR d) by (field; auto). replace (IZR n / IZR d * (IZR b * IZR d)) with (IZR n * IZR b) by (field; auto). exact E. }
  cbn [get_ratio]. rewrite Q. reflexivity.
Qed.
Theorem C147_sizes : forall n c, is_class n c -> exists s, In (n, s) (named_units ++ coherent) /\ forall x, to_si (c_scale c) x = to_si s x.
Proof.
  intros n c H.
  set (same := fun a b : uscale => match a, b with Ratio p q, Ratio r t => (0 <? q)%Z && (0 <? t)%Z && (p * t =? r * q)%Z | Tag t, Tag t' => tag_eqb t t' | _, _ => false end).
  assert (A : forallb (fun p => existsb (fun q => String.eqb (fst p) (fst q) && same (c_scale (snd p)) (snd q)) (named_units ++ coherent)) bound = true) by (vm_compute; reflexivity).
  apply (proj1 (forallb_forall _ _)) with (x := (n, c)) in A; auto. apply existsb_exists in A. destruct A as ((m & s) & I & B). cbn [fst snd] in B. apply andb_true_iff in B. destruct B as [E B].
  apply String.eqb_eq in E. subst m. exists s. split; auto. intros x. destruct (c_scale c) as [p q|t], s as [r u|t']; cbn in B; try discriminate.
  - apply andb_true_iff in B. destruct B as [B1 B2]. apply andb_true_iff in B1. destruct B1 as [B1 B3]. apply Z.ltb_lt in B1, B3. apply Z.eqb_eq in B2. apply same_ratio; auto.
  - destruct t, t'; cbn in B; try discriminate; reflexivity.
Qed.
Print Assumptions C147_sizes.
Example C147_units_instance : exists c, is_class "MilesPerHour" c /\ has_dimension "MilesPerHour" (exponents (c_dim c)).
Proof.
  exists (Class Velocity (Ratio 1397 3125)). assert (I : is_class "MilesPerHour" (Class Velocity (Ratio 1397 3125))) by (unfold is_class, bound; cbn -[Velocity]; repeat (try (left; reflexivity); right)).
  split; auto. destruct (proj1 (C147_dimensions _ _) I) as (e & D & _ & E). rewrite E. exact D.
Qed.
