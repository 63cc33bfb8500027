(* Consequences of C02, C19, C137, C146, C147, C148 and C154: what the console shows at first, that a rebinding statement makes an object of its own,
   what a FITS file says about its own shape, and that an empty line is no star. *)
From Coq Require Import Reals Lra Lia List String ZArith.
From Verif Require Import Common PyQuantityModel.
From Verif Require Vec3 DefocusModel CrashModel SpectrumOpsModel FitsHeaderModel FitsHeaderProofs FitsHeaderProps LoggerModel LoggerProps TychoModel TychoSpec.
Import ListNotations.

(** C147: Python's objects. Every name names an object made before; a statement that makes a new object shares it with nobody *)
Definition made (vars : string -> nat) (next : nat) : Prop := forall z, (vars z < next)%nat.
Theorem C147_fresh : forall x v e e', made (vars e) (next e) -> run_iadd x v e = Val e' ->
  made (vars e') (next e') /\ (forall y, made (vars (assign x y e)) (next (assign x y e))) /\
  (vars e' x = vars e x \/ forall z, z <> x -> vars e' z <> vars e' x /\ objs e' (vars e' z) = objs e (vars e z)).
Proof.
  intros x v e e' M R. unfold run_iadd in R. destruct (objs e (vars e x)) as [c a| | | |]; try discriminate. destruct (py_iadd c a v) as [[w ip]|]; cbn in R; try discriminate.
  assert (A : forall y, made (vars (assign x y e)) (next (assign x y e))) by (intros y z; cbn; destruct (String.eqb z x); apply M).
  destruct ip; injection R as <-; cbn.
  - split; auto.
  - split; [|split; [exact A|right]].
    + intros z. cbn. destruct (String.eqb z x); [lia|]. specialize (M z). lia.
    + intros z N. rewrite String.eqb_refl. apply String.eqb_neq in N. rewrite N. specialize (M z). split; [lia|]. destruct (Nat.eqb_spec (vars e z) (next e)); [lia|reflexivity].
Qed.
Print Assumptions C147_fresh.

Theorem C154_fresh : forall o x r e, made (SpectrumOpsModel.vars e) (SpectrumOpsModel.next e) -> let e' := SpectrumOpsModel.run o x r e in
  made (SpectrumOpsModel.vars e') (SpectrumOpsModel.next e') /\ (forall y, made (SpectrumOpsModel.vars (SpectrumOpsModel.assign x y e)) (SpectrumOpsModel.next (SpectrumOpsModel.assign x y e))) /\
  forall k, r = SpectrumOpsModel.Num k -> forall z, z <> x -> SpectrumOpsModel.vars e' z <> SpectrumOpsModel.vars e' x /\ SpectrumOpsModel.objs e' (SpectrumOpsModel.vars e' z) = SpectrumOpsModel.objs e (SpectrumOpsModel.vars e z).
Proof.
  intros o x r e M. cbv zeta. assert (A : forall y, made (SpectrumOpsModel.vars (SpectrumOpsModel.assign x y e)) (SpectrumOpsModel.next (SpectrumOpsModel.assign x y e))) by (intros y z; cbn; destruct (String.eqb z x); apply M).
  split; [|split; [exact A|]].
  - destruct r as [y|k]; [exact M|]. intros z. cbn. destruct (String.eqb z x); [lia|]. specialize (M z). lia.
  - intros k -> z N. cbn. rewrite String.eqb_refl. apply String.eqb_neq in N. rewrite N. specialize (M z). split; [lia|]. destruct (Nat.eqb_spec (SpectrumOpsModel.vars e z) (SpectrumOpsModel.next e)); [lia|reflexivity].
Qed.
Print Assumptions C154_fresh.

(** C148: the file says that it is a two-dimensional image of the picture's width and height in the depth asked for *)
Import FitsHeaderModel FitsHeaderProofs FitsHeaderProps.
Theorem C148_structure : forall b p m h, carried m -> write_header b p m = Ok h ->
  find_key h "SIMPLE" = Some (HBool true) /\ find_key h "BITPIX" = Some (HInt b) /\ find_key h "NAXIS" = Some (HInt 2) /\
  find_key h "NAXIS1" = Some (HInt (p_w p)) /\ find_key h "NAXIS2" = Some (HInt (p_h p)).
Proof.
  intros b p m h (_ & _ & _ & _ & _ & ND & CO) W. rewrite Forall_forall in CO.
  apply write_whole in W.
  - subst h. unfold whole. cbv zeta. rewrite !find_app. unfold header_of. rewrite !find_app. repeat split.
  - split; auto. intros w I. destruct (CO w I) as (N & _). destruct (is_known (kw_key w)) eqn:E; auto. apply is_known_in in E. contradiction.
  - intros I. apply in_map_iff in I. destruct I as (x & E & I). destruct (CO x I) as (_ & _ & N & _). congruence.
Qed.
Print Assumptions C148_structure.
(* the number no stored pixel of a float image exceeds is the largest float *)
Theorem C148_extremes : flt_max = IZR (2 ^ 128 - 2 ^ 104).
Proof. unfold flt_max. rewrite <- minus_IZR, <- mult_IZR. f_equal. Qed.
Print Assumptions C148_extremes.

(** C02: a new logger shows warnings and nothing below *)
Theorem console_initial : LoggerModel.mem (LoggerModel.start_config []) LoggerModel.FWarning = true /\ LoggerModel.mem (LoggerModel.start_config []) LoggerModel.FInfo = false /\ LoggerModel.mem (LoggerModel.start_config []) LoggerModel.FDebug = false.
Proof. auto. Qed.
Print Assumptions console_initial.

(** C19: the lines the Tycho-2 loaders use are those that begin with a digit; every other line, an empty one too, is passed over *)
Theorem tycho_data_line : forall line, TychoModel.valid_line line = true <-> exists c rest, line = c :: rest /\ (48 <= c <= 57)%N.
Proof.
  intros [|c r]; cbn.
  - split; [discriminate|]. intros (? & ? & E & _). discriminate.
  - rewrite andb_true_iff, !N.leb_le. split; [intros H; exists c, r; auto|]. intros (c' & r' & E & H). injection E as <- <-. exact H.
Qed.
Print Assumptions tycho_data_line.
Theorem tycho_other_line : forall A step line rest data i, (forall c r, line = c :: r -> ~ (48 <= c <= 57)%N) ->
  TychoModel.line_loop A step (line :: rest) data i = TychoModel.line_loop A step rest data i.
Proof.
  intros A step line rest data i H. cbn [TychoModel.line_loop]. destruct (TychoModel.valid_line line) eqn:E; auto. apply tycho_data_line in E as (c & r & -> & R). exfalso. exact (H c r eq_refl R).
Qed.
Print Assumptions tycho_other_line.

(** C137: a lens that was never focused has no kernel to give *)
Theorem C137_unfocused : forall u v, DefocusModel.get_defocus_kernel DefocusModel.cache0 u v = Throws /\ DefocusModel.has_defocus DefocusModel.cache0 = false.
Proof. intros u v. split; [reflexivity|]. unfold DefocusModel.has_defocus. cbn. destruct (Vec3.Rltb 0 0) eqn:E; auto. apply Vec3.Rltb_true in E. exfalso. lra. Qed.
Print Assumptions C137_unfocused.

(** C146: a fault inside a handler ends the program at once exactly when the handler of that same signal is already running in the thread, or was taken away *)
Theorem C146_nested : forall s t g r d s', CrashModel.dead s = None -> CrashModel.frames s t = CrashModel.Fault g :: r -> CrashModel.go d t s = Some s' ->
  (CrashModel.dead s' = Some g <-> CrashModel.disp s g = false \/ exists pc, In (CrashModel.Crash g pc) r) /\
  (CrashModel.dead s' = None <-> CrashModel.frames s' t = CrashModel.Crash g CrashModel.CEntry :: CrashModel.frames s t).
Proof.
  intros s t g r d s' D F G. unfold CrashModel.go in G. rewrite F in G.
  assert (B : CrashModel.blocked g r = true <-> exists pc, In (CrashModel.Crash g pc) r).
  { unfold CrashModel.blocked. rewrite existsb_exists. split.
    - intros (f & I & E). destruct f as [?| | |h pc|?]; try discriminate. destruct g, h; cbn in E; try discriminate; exists pc; exact I.
    - intros (pc & I). exists (CrashModel.Crash g pc). split; auto. destruct g; reflexivity. }
  destruct (CrashModel.disp s g); cbn in G.
  - destruct (CrashModel.blocked g r); cbn in G; injection G as <-; cbn.
    + split; [split; [intros _; right; apply B; auto|auto]|]. rewrite F. split; [discriminate|]. intros E. apply (f_equal (@List.length _)) in E. cbn in E. lia.
    + rewrite D. unfold CrashModel.upd. rewrite Nat.eqb_refl, F. split; [|split; auto]. split; [discriminate|]. intros [E|E]; [discriminate|]. apply B in E. discriminate.
  - injection G as <-. cbn. split; [split; auto|]. rewrite F. split; [discriminate|]. intros E. apply (f_equal (@List.length _)) in E. cbn in E. lia.
Qed.
Print Assumptions C146_nested.
