(* C125: PNG images are read as they are stored and written as they are. *)
From Verif Require Import Common Vec3 Float32 DecodeModel DecodeProofs PixelModel PixelProofs TiffModel TiffProofs TextureModel PngModel.
From Coq Require Import Reals Lra.
From Flocq Require Import Core.
Open Scope R_scope.

(** Specification *)
(* raw holds the samples S x y c of a w x h picture with n samples per pixel, row by row, 8 bits each or 16 bits, low byte first *)
Definition holds (w h n depth : Z) (raw : arr) (S : Z -> Z -> Z -> Z) : Prop := asz raw = (w * h * n * (depth / 8))%Z /\
  forall x y c, (0 <= x < w)%Z -> (0 <= y < h)%Z -> (0 <= c < n)%Z -> (0 <= S x y c < 2 ^ depth)%Z /\
    let i := (((y * w + x) * n + c) * (depth / 8))%Z in
    if (depth =? 16)%Z then (aget raw i + 256 * aget raw (i + 1) = S x y c)%Z else aget raw i = S x y c.
(* the float nearest to the fraction of full scale *)
Definition fraction (depth s : Z) : R := fl (IZR s / IZR (2 ^ depth - 1)).
Definition colour_of (gray : bool) (f : Z -> R) : R * R * R := if gray then (f 0%Z, f 0%Z, f 0%Z) else (f 0%Z, f 1%Z, f 2%Z).

(** Proofs *)
Lemma value_fraction depth v : (depth = 8 \/ depth = 16)%Z -> (0 <= v < 2 ^ depth)%Z -> value depth v = fraction depth v.
Proof.
  intros D V. unfold value, uint_to_float, fraction, maxval. rewrite !(float_le24 v), !(float_le24 (2 ^ depth - 1)) by (destruct D; subst; lia). rewrite Rminus_0_r, fl_1, Rmult_1_r, Rplus_0_l.
  rewrite !(fl_id (fl _)) by apply fl_is_float. reflexivity.
Qed.
Section Reading.
Variables (w h depth : Z) (gray alpha : bool) (raw : arr) (S : Z -> Z -> Z -> Z).
Hypothesis D : (depth = 8 \/ depth = 16)%Z.
Hypothesis W : (0 <= w)%Z. Hypothesis H : (0 <= h)%Z. Hypothesis WH : (w * h < 2 ^ 31)%Z.
Hypothesis HOLDS : holds w h (channels gray alpha) depth raw S.
Lemma channels_range : (1 <= channels gray alpha <= 4)%Z.
Proof. unfold channels. destruct gray, alpha; lia. Qed.
Lemma depth_bytes : (depth / 8 = 1 \/ depth / 8 = 2)%Z.
Proof. destruct D; subst; [left|right]; reflexivity. Qed.
Lemma sample_ok x y c : (0 <= x < w)%Z -> (0 <= y < h)%Z -> (0 <= c < channels gray alpha)%Z -> png_sample w depth gray alpha raw x y c = Ok (fraction depth (S x y c)).
Proof.
  intros X Y C. pose proof channels_range as CH. destruct HOLDS as (SZ & HS). destruct (HS x y c X Y C) as (R0 & HV). set (n := channels gray alpha) in *.
  assert (P : (0 <= y * w + x < w * h)%Z) by nia. assert (P2 : (0 <= y * w <= y * w + x)%Z) by nia. assert (B : (0 <= (y * w + x) * n + c < w * h * n)%Z) by (generalize dependent (y * w + x)%Z; generalize dependent (w * h)%Z; intros; nia). assert (B3 : (0 <= y * w * n <= 4 * 2 ^ 31)%Z) by nia. assert (B4 : (0 <= x * n <= 4 * 2 ^ 31)%Z) by nia.
  unfold png_sample, row_bytes. fold n. destruct D as [E|E]; rewrite E in *.
  - replace (8 =? 16)%Z with false in * by reflexivity. change (8 / 8)%Z with 1%Z in *. replace (y * (w * n * 1))%Z with (y * w * n)%Z by ring. rewrite !sz_small by lia. replace (y * w * n + x * n + c)%Z with (((y * w + x) * n + c) * 1)%Z by ring. rewrite rd_ok by lia. cbn [obind]. cbn [Z.eqb Pos.eqb] in HV. rewrite HV. rewrite value_fraction by (auto; lia). reflexivity.
  - replace (16 =? 16)%Z with true in * by reflexivity. change (16 / 8)%Z with 2%Z in *. cbn [Z.eqb Pos.eqb] in HV. replace (y * (w * n * 2))%Z with (2 * (y * w * n))%Z by ring. rewrite !sz_small by lia. replace (2 * (y * w * n) + x * n * 2 + 2 * c)%Z with (((y * w + x) * n + c) * 2)%Z by ring. unfold u16. rewrite !rd_ok by lia. cbn [obind]. rewrite HV. rewrite value_fraction by (auto; lia). reflexivity.
Qed.
Lemma colour_ok x y : (0 <= x < w)%Z -> (0 <= y < h)%Z ->
  (if gray then Ok (fraction depth (S x y 0), fraction depth (S x y 0), fraction depth (S x y 0)) else g <- png_sample w depth gray alpha raw x y 1;; b <- png_sample w depth gray alpha raw x y 2;; Ok (fraction depth (S x y 0), g, b)) = Ok (colour_of gray (fun c => fraction depth (S x y c))).
Proof. intros X Y. pose proof (fun c => sample_ok x y c X Y) as SO. clear HOLDS. revert SO. unfold channels, colour_of. destruct gray; auto. intros SO. rewrite !SO by (destruct alpha; lia). reflexivity. Qed.
Definition average (gray : bool) (f : Z -> R) : R := if gray then f 0%Z else fl (fl (fl (f 0%Z + f 1%Z) + f 2%Z) / 3).
Lemma average_ok x y : (0 <= x < w)%Z -> (0 <= y < h)%Z ->
  (if gray then Ok (fraction depth (S x y 0)) else g <- png_sample w depth gray alpha raw x y 1;; b <- png_sample w depth gray alpha raw x y 2;; Ok (fl (fl (fl (fraction depth (S x y 0) + g) + b) / 3))) = Ok (average gray (fun c => fraction depth (S x y c))).
Proof. intros X Y. pose proof (fun c => sample_ok x y c X Y) as SO. clear HOLDS. revert SO. unfold channels, average. destruct gray; auto. intros SO. rewrite !SO by (destruct alpha; lia). reflexivity. Qed.
Lemma alpha_ok x y : (0 <= x < w)%Z -> (0 <= y < h)%Z -> alpha = true -> png_sample w depth gray alpha raw x y (if gray then 1 else 3)%Z = Ok (fraction depth (S x y (if gray then 1 else 3))%Z).
Proof. intros X Y A. pose proof (fun c => sample_ok x y c X Y) as SO. clear HOLDS. revert SO. rewrite A. unfold channels. destruct gray; intros SO; apply SO; lia. Qed.
Definition want (p : Z) : R * R * R := colour_of gray (fun c => fraction depth (S (p mod w) (p / w) c)).
Definition want_alpha (p : Z) : R := fraction depth (S (p mod w) (p / w) (if gray then 1 else 3))%Z.
Lemma at_xy x y : (0 <= x < w)%Z -> (0 <= y)%Z -> ((y * w + x) mod w = x /\ (y * w + x) / w = y)%Z.
Proof. intros. rewrite Z.add_comm, Z_mod_plus_full, Z.div_add by lia. rewrite Z.mod_small, Z.div_small by lia. lia. Qed.
Lemma read_ok ra : exists im al, read_png w h depth gray alpha raw ra = Ok (im, al) /\ asz im = (w * h)%Z /\
  (forall x y, (0 <= x < w)%Z -> (0 <= y < h)%Z -> aget im (y * w + x)%Z = colour_of gray (fun c => fraction depth (S x y c))) /\
  (if (ra && alpha)%bool then exists a, al = Some a /\ asz a = (w * h)%Z /\ forall x y, (0 <= x < w)%Z -> (0 <= y < h)%Z -> aget a (y * w + x)%Z = fraction depth (S x y (if gray then 1 else 3))%Z else al = None).
Proof.
  unfold read_png. unfold intv at 1. replace ((- 2 ^ 31 <=? w * h) && (w * h <? 2 ^ 31))%bool%Z with true by nia. cbn [obind].
  set (sh := fun st : array (R * R * R) * array R => asz (fst st) = (w * h)%Z /\ asz (snd st) = (w * h)%Z).
  set (rt := fun (st : array (R * R * R) * array R) (ch p : Z) => aget (fst st) p = want p /\ ((ra && alpha)%bool = true -> aget (snd st) p = want_alpha p)).
  match goal with |- context [for_ ?n ?f ?s] => assert (A : adv sh rt (for_ n f) (fun ch p => exists y, (0 <= y < h)%Z /\ exists x, (0 <= x < w)%Z /\ p = (y * w + x)%Z)); [|set (st0 := s)] end.
  - eapply adv_weaken; [apply adv_for with (D := fun y ch p => exists x, (0 <= x < w)%Z /\ p = (y * w + x)%Z)|].
    2:{ cbv beta. intros ch p (y & Y & x & X & ->). exists y. split; [lia|]. eauto. }
    intros y Y. eapply adv_weaken; [apply adv_for with (D := fun x ch p => p = (y * w + x)%Z)|]. 2:{ cbv beta. intros ch p (x & X & ->). exists x. split; [lia|auto]. }
    intros x X (im & al) (S1 & S2). cbn [fst snd] in *. rewrite Z2Nat.id in X, Y by lia. unfold intv. replace ((- 2 ^ 31 <=? y * w) && (y * w <? 2 ^ 31))%bool%Z with true by nia. cbn [obind].
    pose proof channels_range as CH. rewrite sample_ok by lia. cbn [obind]. assert (IX : (0 <= y * w + x < w * h)%Z) by nia. destruct (at_xy x y X ltac:(lia)) as (MX & MY).
    rewrite colour_ok by lia. replace (colour_of gray (fun c => fraction depth (S x y c))) with (want (y * w + x)%Z) by (unfold want; rewrite MX, MY; reflexivity).
    cbn [obind]. rewrite wr_ok by lia. cbn [obind]. destruct (ra && alpha)%bool eqn:RA.
    + apply andb_prop in RA. destruct RA as (_ & AL). rewrite alpha_ok by (auto; lia). cbn [obind]. rewrite wr_ok by lia. cbn [obind]. eexists. split; [reflexivity|]. split; [split; auto|].
      intros ch p [(R1 & R2)|E]; unfold rt in *; cbn [fst snd aget] in *.
      * destruct (Z.eqb_spec p (y * w + x)) as [->|]; [|auto]. split; auto. intros _. unfold want_alpha. rewrite MX, MY. auto.
      * subst p. rewrite Z.eqb_refl. split; auto. intros _. unfold want_alpha. rewrite MX, MY. auto.
    + eexists. split; [reflexivity|]. split; [split; auto|].
      intros ch p [(R1 & R2)|E]; unfold rt in *; cbn [fst snd aget] in *.
      * destruct (Z.eqb_spec p (y * w + x)) as [->|]; [|auto]. split; auto.
      * subst p. rewrite Z.eqb_refl. split; auto. discriminate.
  - destruct (A st0 (conj eq_refl eq_refl)) as (s1 & -> & (S1 & S2) & R1). cbn [obind]. eexists _, _. split; [reflexivity|]. split; auto. split.
    + intros x y X Y. destruct (R1 0%Z (y * w + x)%Z) as (R & _); [right; eauto 6|]. rewrite R. unfold want. destruct (at_xy x y X ltac:(lia)) as (-> & ->). reflexivity.
    + destruct (ra && alpha)%bool eqn:RA; auto. eexists. split; [reflexivity|]. split; auto. intros x y X Y. destruct (R1 0%Z (y * w + x)%Z) as (_ & R); [right; eauto 6|]. rewrite R by auto. unfold want_alpha. destruct (at_xy x y X ltac:(lia)) as (-> & ->). reflexivity.
Qed.
Lemma mono_ok : exists im, read_png_mono w h depth gray alpha raw = Ok im /\ asz im = (w * h)%Z /\
  forall x y, (0 <= x < w)%Z -> (0 <= y < h)%Z -> aget im (y * w + x)%Z = average gray (fun c => fraction depth (S x y c)).
Proof.
  unfold read_png_mono. unfold intv at 1. replace ((- 2 ^ 31 <=? w * h) && (w * h <? 2 ^ 31))%bool%Z with true by nia. cbn [obind].
  set (sh := fun st : array R => asz st = (w * h)%Z). set (wm := fun p : Z => average gray (fun c => fraction depth (S (p mod w) (p / w) c))).
  set (rt := fun (st : array R) (ch p : Z) => aget st p = wm p).
  match goal with |- context [for_ ?n ?f ?s] => assert (A : adv sh rt (for_ n f) (fun ch p => exists y, (0 <= y < h)%Z /\ exists x, (0 <= x < w)%Z /\ p = (y * w + x)%Z)); [|set (st0 := s)] end.
  - eapply adv_weaken; [apply adv_for with (D := fun y ch p => exists x, (0 <= x < w)%Z /\ p = (y * w + x)%Z)|].
    2:{ cbv beta. intros ch p (y & Y & x & X & ->). exists y. split; [lia|]. eauto. }
    intros y Y. eapply adv_weaken; [apply adv_for with (D := fun x ch p => p = (y * w + x)%Z)|]. 2:{ cbv beta. intros ch p (x & X & ->). exists x. split; [lia|auto]. }
    intros x X im S1. rewrite Z2Nat.id in X, Y by lia. unfold intv. replace ((- 2 ^ 31 <=? y * w) && (y * w <? 2 ^ 31))%bool%Z with true by nia. cbn [obind].
    pose proof channels_range as CH. rewrite sample_ok by lia. cbn [obind]. assert (IX : (0 <= y * w + x < w * h)%Z) by nia. destruct (at_xy x y X ltac:(lia)) as (MX & MY).
    rewrite average_ok by lia. replace (average gray (fun c => fraction depth (S x y c))) with (wm (y * w + x)%Z) by (unfold wm; rewrite MX, MY; reflexivity).
    cbn [obind]. rewrite wr_ok by (unfold sh in S1; lia). eexists. split; [reflexivity|]. split; [exact S1|].
    intros ch p [R1|E]; unfold rt in *; cbn [aget].
    * destruct (Z.eqb_spec p (y * w + x)) as [->|]; auto.
    * subst p. rewrite Z.eqb_refl. auto.
  - destruct (A st0 eq_refl) as (s1 & -> & S1 & R1). eexists. split; [reflexivity|]. split; auto.
    intros x y X Y. rewrite (R1 0%Z (y * w + x)%Z) by (right; eauto 6). unfold wm. destruct (at_xy x y X ltac:(lia)) as (-> & ->). reflexivity.
Qed.
End Reading.

(** bytes *)
Definition total (l : list Z) : Z := fold_right Z.add 0%Z l.
(* the n bytes of data from position i *)
Definition bytes_from (data : arr) (i n : Z) : list Z := map (fun k => aget data (i + k)%Z) (map Z.of_nat (seq 0 (Z.to_nat n))).
Definition sensible (l : list Z) : Prop := Forall (fun n => (0 <= n < 2 ^ 62)%Z) l.
Lemma total_nonneg l : sensible l -> (0 <= total l)%Z.
Proof. induction 1; cbn [total fold_right]; [lia|]. fold (total l). lia. Qed.
Lemma bytes_from_app data i n m : (0 <= n)%Z -> (0 <= m)%Z -> bytes_from data i n ++ bytes_from data (i + n) m = bytes_from data i (n + m).
Proof.
  intros N M. unfold bytes_from. rewrite Z2Nat.inj_add, seq_app, !map_app, !map_map by auto. f_equal. cbn [plus]. set (a := Z.to_nat n).
  replace (seq a (Z.to_nat m)) with (map (fun k => (a + k)%nat) (seq 0 (Z.to_nat m))). 2:{ induction (Z.to_nat m) as [|b IH]; auto. rewrite !seq_S, map_app, IH. reflexivity. }
  rewrite map_map. apply map_ext. intros k. f_equal. unfold a. lia.
Qed.
Lemma pull_ok data s l : m_data s = data -> (0 <= m_pos s <= asz data)%Z -> (asz data < 2 ^ 62)%Z -> sensible l ->
  pull s l = if (m_pos s + total l <=? asz data)%Z then Ok (bytes_from data (m_pos s) (total l), Mem data (m_pos s + total l)) else Throws.
Proof.
  intros E P SZ F. revert s E P. induction F as [|n l N F IH]; intros s E P; cbn [pull total fold_right].
  - rewrite Z.add_0_r. replace (m_pos s <=? asz data)%Z with true by lia. destruct s; cbn in *; subst; reflexivity.
  - fold (total l). pose proof (total_nonneg l F) as T. unfold mem_callback. rewrite E. rewrite Z.mod_small by lia. destruct (Z.ltb_spec (asz data) (m_pos s + n)) as [L|L].
    + cbn [obind]. replace (m_pos s + (n + total l) <=? asz data)%Z with false by lia. reflexivity.
    + rewrite (bytes_ok _ _ _ (fun k => aget data (m_pos s + k)%Z)) by (rewrite ?Z2Nat.id by lia; auto; lia). cbn [obind snd fst]. rewrite IH by (cbn; auto; lia). cbn [m_pos].
      replace (m_pos s + n + total l <=? asz data)%Z with (m_pos s + (n + total l) <=? asz data)%Z by lia. destruct (Z.leb_spec (m_pos s + (n + total l)) (asz data)); auto. cbn [obind fst snd].
      fold (bytes_from data (m_pos s) n). rewrite bytes_from_app by lia. do 3 f_equal. lia.
Qed.

(** writing *)
Definition lvl (depth : Z) (v : R) : Z := Ztrunc (out_uint (2 ^ depth - 1) v).
Lemma lvl_ok depth v : (depth = 8 \/ depth = 16)%Z -> level depth v = Ok (lvl depth v) /\ (0 <= lvl depth v < 2 ^ depth)%Z.
Proof. intros D. unfold level, maxval, lvl. destruct (uint_total (2 ^ depth - 1) v ltac:(destruct D; subst; lia)) as (k & E & B & ->). split; auto. lia. Qed.
Definition comps (p : R * R * R) (a : option R) (c : Z) : R := let '(r, g, b) := p in if (c =? 0)%Z then r else if (c =? 1)%Z then g else if (c =? 2)%Z then b else match a with Some x => x | None => 0 end.
Section Writing.
Variables (w h depth : Z) (image : array (R * R * R)) (alpha : option (array R)).
Hypothesis D : (depth = 8 \/ depth = 16)%Z.
Hypothesis W : (0 < w)%Z. Hypothesis H : (0 < h)%Z.
Hypothesis SI : asz image = (w * h)%Z.
Hypothesis SA : forall al, alpha = Some al -> asz al = (w * h)%Z.
Definition n_out : Z := if alpha then 4%Z else 3%Z.
Definition expected (x y c : Z) : Z := lvl depth (comps (aget image (y * w + x)%Z) (option_map (fun al => aget al (y * w + x)%Z) alpha) c).
Lemma wr_right (row : arr) i v (G : Z -> Z) : (0 <= i < asz row)%Z -> v = G i ->
  exists row', wr row i v = Ok row' /\ asz row' = asz row /\ forall j, (aget row j = G j \/ j = i) -> aget row' j = G j.
Proof. intros I ->. rewrite wr_ok by auto. eexists. split; [reflexivity|]. split; auto. intros j J. cbn. destruct (Z.eqb_spec j i); [subst; auto|]. destruct J; [auto|contradiction]. Qed.
Lemma write_row_ok y row : (0 <= y < h)%Z -> asz row = (w * n_out)%Z -> exists row', write_row w depth image alpha y row = Ok row' /\ asz row' = (w * n_out)%Z /\
  forall x c, (0 <= x < w)%Z -> (0 <= c < n_out)%Z -> aget row' (x * n_out + c)%Z = expected x y c.
Proof.
  intros Y SR. set (G := fun i => expected (i / n_out) y (i mod n_out)). assert (N : (3 <= n_out <= 4)%Z) by (unfold n_out; destruct alpha; lia).
  assert (GX : forall x c, (0 <= c < n_out)%Z -> G (x * n_out + c)%Z = expected x y c). { intros x c C. unfold G. rewrite Z.add_comm, Z.div_add, Z_mod_plus_full by lia. rewrite Z.div_small, Z.mod_small by lia. reflexivity. }
  unfold write_row. change (out_channels alpha) with n_out.
  set (sh := fun st : arr => asz st = (w * n_out)%Z). set (rt := fun (st : arr) (ch p : Z) => aget st p = G p).
  match goal with |- context [for_ ?n ?f ?s] => assert (A : adv sh rt (for_ n f) (fun ch p => exists x, (0 <= x < w)%Z /\ exists c, (0 <= c < n_out)%Z /\ p = (x * n_out + c)%Z)) end.
  - eapply adv_weaken; [apply adv_for with (D := fun x ch p => exists c, (0 <= c < n_out)%Z /\ p = (x * n_out + c)%Z)|]. 2:{ cbv beta. intros ch p (x & X & c & C & ->). exists x. split; [lia|]. eauto. }
    intros x X st S1. rewrite Z2Nat.id in X by lia. unfold sh in S1. rewrite rd_ok by nia. cbn [obind]. destruct (aget image (y * w + x)) as ((r & g) & b) eqn:EP.
    assert (BX : forall c, (0 <= c < n_out)%Z -> (0 <= x * n_out + c < w * n_out)%Z) by (intros; nia).
    rewrite (proj1 (lvl_ok depth r D)). cbn [obind].
    destruct (wr_right st (x * n_out + 0) (lvl depth r) G) as (r1 & -> & S2 & R2); [rewrite S1; apply BX; lia|rewrite GX by lia; unfold expected; rewrite EP; reflexivity|]. cbn [obind].
    rewrite (proj1 (lvl_ok depth g D)). cbn [obind].
    destruct (wr_right r1 (x * n_out + 1) (lvl depth g) G) as (r2 & -> & S3 & R3); [rewrite S2, S1; apply BX; lia|rewrite GX by lia; unfold expected; rewrite EP; reflexivity|]. cbn [obind].
    rewrite (proj1 (lvl_ok depth b D)). cbn [obind].
    destruct (wr_right r2 (x * n_out + 2) (lvl depth b) G) as (r3 & -> & S4 & R4); [rewrite S3, S2, S1; apply BX; lia|rewrite GX by lia; unfold expected; rewrite EP; reflexivity|]. cbn [obind].
    assert (K : forall p, aget st p = G p \/ (exists c, (0 <= c < 3)%Z /\ p = (x * n_out + c)%Z) -> aget r3 p = G p).
    { intros p [K|(c & C & ->)]; [apply R4; left; apply R3; left; apply R2; left; auto|]. assert (c = 0 \/ c = 1 \/ c = 2)%Z as [->|[->| ->]] by lia; [apply R4; left; apply R3; left; apply R2; auto|apply R4; left; apply R3; auto|apply R4; auto]. }
    destruct alpha as [al|] eqn:EA.
    + rewrite rd_ok by (rewrite (SA al eq_refl); nia). cbn [obind]. rewrite (proj1 (lvl_ok depth (aget al (y * w + x)) D)). cbn [obind].
      destruct (wr_right r3 (x * n_out + 3) (lvl depth (aget al (y * w + x)%Z)) G) as (r4 & -> & S5 & R5); [rewrite S4, S3, S2, S1; apply BX; unfold n_out; rewrite EA; lia|rewrite GX by (unfold n_out; rewrite EA; lia); unfold expected; rewrite EP, EA; reflexivity|].
      exists r4. split; auto. split; [unfold sh; congruence|]. intros ch p [R|(c & C & ->)]; unfold rt in *; [apply R5; auto|]. destruct (Z.eq_dec c 3) as [->|]; [apply R5; auto|]. apply R5. left. apply K. right. exists c. split; auto. unfold n_out in C; rewrite EA in C. lia.
    + exists r3. split; auto. split; [unfold sh; congruence|]. intros ch p [R|(c & C & ->)]; unfold rt in *; [apply K; auto|]. apply K. right. exists c. split; auto. unfold n_out in C; rewrite EA in C. lia.
  - destruct (A row SR) as (row' & E & S1 & R1). exists row'. split; [exact E|]. split; auto. intros x c X C. rewrite <- GX by auto. apply (R1 0%Z). right. eauto.
Qed.
Lemma write_ok : exists rows, write_png w h depth image alpha = Ok rows /\ List.length rows = Z.to_nat h /\
  forall y, (0 <= y < h)%Z -> let row := nth (Z.to_nat y) rows (Arr 0 (fun _ => 0%Z)) in asz row = (w * n_out)%Z /\ forall x c, (0 <= x < w)%Z -> (0 <= c < n_out)%Z -> aget row (x * n_out + c)%Z = expected x y c.
Proof.
  unfold write_png. replace ((w =? 0) || (h =? 0))%bool%Z with false by lia. replace (negb (depth =? 8) && negb (depth =? 16))%bool%Z with false by (destruct D; subst; reflexivity). change (out_channels alpha) with n_out.
  match goal with |- context [for_ _ ?f ?s] => assert (A : forall k, (k <= Z.to_nat h)%nat -> exists row rows, for_ k f s = Ok (row, rows) /\ asz row = (w * n_out)%Z /\ List.length rows = k /\
    forall y, (0 <= y < Z.of_nat k)%Z -> let row := nth (Z.to_nat y) rows (Arr 0 (fun _ => 0%Z)) in asz row = (w * n_out)%Z /\ forall x c, (0 <= x < w)%Z -> (0 <= c < n_out)%Z -> aget row (x * n_out + c)%Z = expected x y c) end.
  - induction k as [|k IH]; intros K.
    + eexists _, []. split; [reflexivity|]. split; auto. split; auto. intros; lia.
    + destruct IH as (row & rows & E & S1 & L1 & R1); [lia|]. cbn [for_]. rewrite E. cbn [obind fst snd]. destruct (write_row_ok (Z.of_nat k) row ltac:(lia) S1) as (row' & -> & S2 & R2). cbn [obind]. exists row', (rows ++ [row']). split; auto. split; auto. split; [rewrite app_length, L1; cbn; lia|].
      intros y Y. destruct (Z.eq_dec y (Z.of_nat k)) as [->|NE].
      * rewrite Nat2Z.id, app_nth2, L1, Nat.sub_diag by lia. cbn [nth]. auto.
      * rewrite app_nth1 by lia. apply R1. lia.
  - destruct (A (Z.to_nat h) ltac:(lia)) as (row & rows & -> & _ & L & R). cbn [obind snd]. exists rows. split; auto. split; auto. intros y Y. apply R. lia.
Qed.
End Writing.

(** accuracy *)
Lemma div_01 a b : 0 < b -> 0 <= a <= b -> 0 <= a / b <= 1.
Proof. intros B A. assert (0 < / b) by (apply Rinv_0_lt_compat; lra). assert (b * / b = 1) by (apply Rinv_r; lra). unfold Rdiv. nra. Qed.
Lemma frac_close depth k : (depth = 8 \/ depth = 16)%Z -> (0 <= k < 2 ^ depth)%Z -> Rabs (fraction depth k - IZR k / IZR (2 ^ depth - 1)) <= / 2 ^ 23.
Proof.
  intros DD K. unfold fraction. assert (P : 0 < IZR (2 ^ depth - 1)) by (apply (IZR_lt 0); destruct DD; subst; lia). assert (K0 : 0 <= IZR k <= IZR (2 ^ depth - 1)) by (split; apply IZR_le; lia).
  rewrite <- (Rmult_1_r (/ 2 ^ 23)). apply fl_close; [|lra]. pose proof (div_01 _ _ P K0). rewrite Rabs_pos_eq; lra.
Qed.
Lemma lvl_close depth v : (depth = 8 \/ depth = 16)%Z -> is_float v -> 0 <= v <= 1 -> Rabs (fraction depth (lvl depth v) - v) <= 1 / (2 * IZR (2 ^ depth - 1)) + / 2 ^ 21.
Proof.
  intros DD F V. set (M := (2 ^ depth - 1)%Z). assert (MB : (255 <= M < 2 ^ 16)%Z) by (unfold M; destruct DD; subst; lia). assert (P : 255 <= IZR M) by (apply (IZR_le 255); lia).
  pose proof (proj2 (lvl_ok depth v DD)) as LB. pose proof (frac_close depth _ DD LB) as FC. fold M in FC.
  assert (O : out_uint M v = fl (fl (v * IZR M) + 1 / 2)). { unfold out_uint. rewrite fl_clamp01 by auto. rewrite float_le24 by lia. reflexivity. }
  assert (E1 : Rabs (fl (v * IZR M) - v * IZR M) <= / 2 ^ 23 * IZR M). { apply fl_close; [rewrite Rabs_pos_eq; nra|lra]. }
  assert (E2 : Rabs (out_uint M v - (fl (v * IZR M) + 1 / 2)) <= / 2 ^ 23 * (IZR M + 1)). { rewrite O. apply fl_close; [|lra]. assert (fl (v * IZR M) <= IZR M) by (rewrite <- (float_le24 M) at 2 by lia; apply fl_mono; nra). assert (0 <= fl (v * IZR M)) by (rewrite <- fl_0; apply fl_mono; nra). rewrite Rabs_pos_eq; lra. }
  assert (E3 : IZR (lvl depth v) <= out_uint M v < IZR (lvl depth v) + 1). { unfold lvl. fold M. pose proof (out_range M v ltac:(lia)). rewrite Ztrunc_floor by lra. split; [apply Zfloor_lb|apply Zfloor_ub]. }
  set (k := IZR (lvl depth v)) in *. apply Rabs_le_inv in E1, E2, FC.
  assert (E4 : Rabs (k - v * IZR M) <= 1 / 2 + / 2 ^ 23 * (2 * IZR M + 1)) by (apply Rabs_le; lra).
  assert (E5 : Rabs (k / IZR M - v) <= 1 / (2 * IZR M) + / 2 ^ 23 * (2 + / 255)).
  { replace (k / IZR M - v) with ((k - v * IZR M) / IZR M) by (field; lra). unfold Rdiv at 1. rewrite Rabs_mult, (Rabs_pos_eq (/ IZR M)) by (left; apply Rinv_0_lt_compat; lra). assert (I : / IZR M <= / 255) by (apply Rinv_le; lra). assert (0 < / IZR M) by (apply Rinv_0_lt_compat; lra).
    apply Rle_trans with ((1 / 2 + / 2 ^ 23 * (2 * IZR M + 1)) * / IZR M); [apply Rmult_le_compat_r; lra|].
    replace ((1 / 2 + / 2 ^ 23 * (2 * IZR M + 1)) * / IZR M) with (1 / (2 * IZR M) + / 2 ^ 23 * (2 + / IZR M)) by (field; lra). lra. }
  apply Rabs_le_inv in E5. apply Rabs_le. lra.
Qed.
Lemma lvl_fraction depth k : (depth = 8 \/ depth = 16)%Z -> (0 <= k < 2 ^ depth)%Z -> lvl depth (fraction depth k) = k.
Proof.
  intros DD K. pose proof (uint_back k (2 ^ depth - 1) ltac:(lia) ltac:(destruct DD; subst; lia)) as U. fold (maxval depth) in U. fold (value depth k) in U. rewrite value_fraction in U by auto.
  pose proof (proj1 (lvl_ok depth (fraction depth k) DD)) as L. unfold level in L. rewrite L in U. congruence.
Qed.
Lemma fraction_range depth k : (depth = 8 \/ depth = 16)%Z -> (0 <= k < 2 ^ depth)%Z -> 0 <= fraction depth k <= 1.
Proof.
  intros DD K. unfold fraction. assert (P : 0 < IZR (2 ^ depth - 1)) by (apply (IZR_lt 0); destruct DD; subst; lia). assert (K0 : 0 <= IZR k <= IZR (2 ^ depth - 1)) by (split; apply IZR_le; lia).
  pose proof (div_01 _ _ P K0). split; [rewrite <- fl_0; apply fl_mono; lra|rewrite <- fl_1; apply fl_mono; lra].
Qed.
Lemma average_close depth gray S : (depth = 8 \/ depth = 16)%Z -> (forall c, (0 <= c < 3)%Z -> (0 <= S c < 2 ^ depth)%Z) ->
  Rabs (average gray (fun c => fraction depth (S c)) - (if gray then IZR (S 0%Z) else (IZR (S 0%Z) + IZR (S 1%Z) + IZR (S 2%Z)) / 3) / IZR (2 ^ depth - 1)) <= / 2 ^ 21.
Proof.
  intros DD K. unfold average. pose proof (frac_close depth _ DD (K 0%Z ltac:(lia))) as C0. destruct gray; [lra|]. pose proof (frac_close depth _ DD (K 1%Z ltac:(lia))) as C1. pose proof (frac_close depth _ DD (K 2%Z ltac:(lia))) as C2.
  pose proof (fraction_range depth _ DD (K 0%Z ltac:(lia))) as B0. pose proof (fraction_range depth _ DD (K 1%Z ltac:(lia))) as B1. pose proof (fraction_range depth _ DD (K 2%Z ltac:(lia))) as B2.
  set (a := fraction depth (S 0%Z)) in *. set (b := fraction depth (S 1%Z)) in *. set (c := fraction depth (S 2%Z)) in *. assert (P : 0 < IZR (2 ^ depth - 1)) by (apply (IZR_lt 0); destruct DD; subst; lia). set (M := IZR (2 ^ depth - 1)) in *.
  assert (E1 : Rabs (fl (a + b) - (a + b)) <= / 2 ^ 23 * 2) by (apply fl_close; [rewrite Rabs_pos_eq; lra|lra]).
  assert (R1 : 0 <= fl (a + b) <= 2) by (split; [rewrite <- fl_0; apply fl_mono; lra|rewrite <- (float_le24 2) by lia; apply fl_mono; lra]).
  assert (E2 : Rabs (fl (fl (a + b) + c) - (fl (a + b) + c)) <= / 2 ^ 23 * 3) by (apply fl_close; [rewrite Rabs_pos_eq; lra|lra]).
  assert (R2 : 0 <= fl (fl (a + b) + c) <= 3) by (split; [rewrite <- fl_0; apply fl_mono; lra|rewrite <- (float_le24 3) by lia; apply fl_mono; lra]).
  assert (E3 : Rabs (fl (fl (fl (a + b) + c) / 3) - fl (fl (a + b) + c) / 3) <= / 2 ^ 23 * 1) by (apply fl_close; [rewrite Rabs_pos_eq; lra|lra]).
  apply Rabs_le_inv in C0, C1, C2, E1, E2, E3. replace ((IZR (S 0%Z) + IZR (S 1%Z) + IZR (S 2%Z)) / 3 / M) with ((IZR (S 0%Z) / M + IZR (S 1%Z) / M + IZR (S 2%Z) / M) / 3) by (field; lra). apply Rabs_le. lra.
Qed.

(** Theorems *)
Definition samples_of (gray alpha : bool) : Z := ((if gray then 1 else 3) + (if alpha then 1 else 0))%Z.
(* Every pixel and its alpha are the stored samples, to the nearest float, for pictures of less than 2^31 pixels. *)
Theorem C125_pixels_partial : forall w h depth gray alpha raw S read_alpha, (depth = 8 \/ depth = 16)%Z -> (0 <= w)%Z -> (0 <= h)%Z -> (w * h < 2 ^ 31)%Z ->
  holds w h (samples_of gray alpha) depth raw S ->
  exists im al, read_png w h depth gray alpha raw read_alpha = Ok (im, al) /\ asz im = (w * h)%Z /\
    (forall x y, (0 <= x < w)%Z -> (0 <= y < h)%Z -> aget im (y * w + x)%Z = colour_of gray (fun c => fraction depth (S x y c))) /\
    (if (read_alpha && alpha)%bool then exists a, al = Some a /\ asz a = (w * h)%Z /\
       forall x y, (0 <= x < w)%Z -> (0 <= y < h)%Z -> aget a (y * w + x)%Z = fraction depth (S x y (samples_of gray alpha - 1))%Z
     else al = None).
Proof.
  intros w h depth gray alpha raw S ra D W H WH HO. destruct (read_ok w h depth gray alpha raw S D W H WH HO ra) as (im & al & E & A & B & C). exists im, al. split; auto. split; auto. split; auto.
  destruct (ra && alpha)%bool eqn:RA; auto. apply andb_prop in RA. destruct RA as (_ & ->). destruct C as (a & C1 & C2 & C3). exists a. split; auto. split; auto. intros x y X Y. rewrite C3 by auto. unfold samples_of. destruct gray; reflexivity.
Qed.
(* libpng accepts pictures of up to a million pixels a side *)
Theorem C125_large_refuted : forall depth gray alpha raw read_alpha, read_png 65536 65536 depth gray alpha raw read_alpha = UB /\ read_png_mono 65536 65536 depth gray alpha raw = UB.
Proof. intros. split; reflexivity. Qed.
(* Read as gray: the mean of the colours, within 2^-21. *)
Theorem C125_mono_partial : forall w h depth gray alpha raw S, (depth = 8 \/ depth = 16)%Z -> (0 <= w)%Z -> (0 <= h)%Z -> (w * h < 2 ^ 31)%Z ->
  holds w h (samples_of gray alpha) depth raw S ->
  exists im, read_png_mono w h depth gray alpha raw = Ok im /\ asz im = (w * h)%Z /\
    forall x y, (0 <= x < w)%Z -> (0 <= y < h)%Z ->
      Rabs (aget im (y * w + x)%Z - (if gray then IZR (S x y 0%Z) else (IZR (S x y 0%Z) + IZR (S x y 1%Z) + IZR (S x y 2%Z)) / 3) / IZR (2 ^ depth - 1)) <= / 2 ^ 21.
Proof.
  intros w h depth gray alpha raw S D W H WH HO. destruct (mono_ok w h depth gray alpha raw S D W H WH HO) as (im & E & A & B). exists im. split; auto. split; auto. intros x y X Y. rewrite B by auto.
  destruct HO as (_ & HO). destruct gray.
  - pose proof (frac_close depth (S x y 0%Z) D (proj1 (HO x y 0%Z X Y ltac:(unfold samples_of; destruct alpha; lia)))). cbn [average]. lra.
  - apply (average_close depth false (S x y) D). intros c C. apply (HO x y c X Y). unfold samples_of; destruct alpha; lia.
Qed.
(* Whatever libpng asks for, it gets the bytes of the buffer in order or an error; nothing outside is read. *)
Theorem C125_memory : forall data requests, (8 <= asz data < 2 ^ 62)%Z -> sensible requests ->
  pull (Mem data 8) requests = if (8 + total requests <=? asz data)%Z then Ok (bytes_from data 8 (total requests), Mem data (8 + total requests)) else Throws.
Proof. intros data l B F. apply (pull_ok data (Mem data 8) l eq_refl ltac:(cbn; lia) ltac:(lia) F). Qed.
(* A buffer that ends before the pixel data starts is reported; one that holds all libpng asks for is read. *)
Theorem C125_errors_partial : forall data info image, (asz data < 2 ^ 62)%Z -> sensible info -> sensible image ->
  ((asz data < 8 + total info)%Z -> read_png_bytes data info image = Throws) /\
  ((8 + total info + total image <= asz data)%Z -> read_png_bytes data info image = Ok (bytes_from data 8 (total info + total image))).
Proof.
  intros data info image B F F'. pose proof (total_nonneg _ F). pose proof (total_nonneg _ F'). unfold read_png_bytes. split; intros L.
  - destruct (Z.ltb_spec (asz data) 8); auto. rewrite C125_memory by (auto; lia). replace (8 + total info <=? asz data)%Z with false by lia. reflexivity.
  - replace (asz data <? 8)%Z with false by lia. rewrite C125_memory by (auto; lia). replace (8 + total info <=? asz data)%Z with true by lia. cbn [catching obind snd].
    rewrite (pull_ok data) by (cbn [m_data m_pos]; auto; lia). cbn [m_pos]. replace (8 + total info + total image <=? asz data)%Z with true by lia. cbn [catching obind fst snd]. rewrite bytes_from_app by lia. reflexivity.
Qed.
(* a buffer cut off within the pixel data: the error handler jumps over the destructors of two vectors *)
Theorem C125_truncated_refuted : forall data info image, (asz data < 2 ^ 62)%Z -> sensible info -> sensible image ->
  (8 + total info <= asz data < 8 + total info + total image)%Z -> read_png_bytes data info image = UB.
Proof.
  intros data info image B F F' L. pose proof (total_nonneg _ F). unfold read_png_bytes. replace (asz data <? 8)%Z with false by lia. rewrite C125_memory by (auto; lia). replace (8 + total info <=? asz data)%Z with true by lia. cbn [catching obind snd].
  rewrite (pull_ok data) by (cbn [m_data m_pos]; auto; lia). cbn [m_pos]. replace (8 + total info + total image <=? asz data)%Z with false by lia. reflexivity.
Qed.
(* The samples written: sample c of pixel (x, y) of the file, with what the writer hands to libpng row by row. *)
Definition written (rows : list arr) (n : Z) : Z -> Z -> Z -> Z := fun x y c => aget (nth (Z.to_nat y) rows (Arr 0 (fun _ => 0%Z))) (x * n + c)%Z.
Definition channel (p : R * R * R) (c : Z) : R := let '(r, g, b) := p in if (c =? 0)%Z then r else if (c =? 1)%Z then g else b.
(* Written and read back at the same depth, colours and alpha between 0 and 1 are within half a step (and 2^-21 of rounding). *)
Theorem C125_round_trip_partial : forall w h depth image alpha, (depth = 8 \/ depth = 16)%Z -> (0 < w)%Z -> (0 < h)%Z -> (w * h < 2 ^ 31)%Z -> asz image = (w * h)%Z ->
  (forall al, alpha = Some al -> asz al = (w * h)%Z) ->
  exists rows, write_png w h depth image alpha = Ok rows /\ List.length rows = Z.to_nat h /\
  forall raw, let n := samples_of false (if alpha then true else false) in holds w h n depth raw (written rows n) ->
  exists im al, read_png w h depth false (if alpha then true else false) raw true = Ok (im, al) /\
    (forall x y c, (0 <= x < w)%Z -> (0 <= y < h)%Z -> (0 <= c < 3)%Z -> let v := channel (aget image (y * w + x)%Z) c in is_float v -> 0 <= v <= 1 ->
       Rabs (channel (aget im (y * w + x)%Z) c - v) <= 1 / (2 * IZR (2 ^ depth - 1)) + / 2 ^ 21) /\
    (forall x y c k, (0 <= x < w)%Z -> (0 <= y < h)%Z -> (0 <= c < 3)%Z -> (0 <= k < 2 ^ depth)%Z -> channel (aget image (y * w + x)%Z) c = fraction depth k ->
       channel (aget im (y * w + x)%Z) c = fraction depth k) /\
    match alpha with
    | None => al = None
    | Some a => exists a', al = Some a' /\ forall x y, (0 <= x < w)%Z -> (0 <= y < h)%Z -> let v := aget a (y * w + x)%Z in is_float v -> 0 <= v <= 1 ->
        Rabs (aget a' (y * w + x)%Z - v) <= 1 / (2 * IZR (2 ^ depth - 1)) + / 2 ^ 21
    end.
Proof.
  intros w h depth image alpha D W H WH SI SA. destruct (write_ok w h depth image alpha D W H SI SA) as (rows & E & L & R). exists rows. split; auto. split; auto. intros raw n HO.
  assert (N : n = n_out alpha) by (unfold n, samples_of, n_out; destruct alpha; reflexivity).
  destruct (C125_pixels_partial w h depth false (if alpha then true else false) raw _ true D ltac:(lia) ltac:(lia) WH HO) as (im & al & E2 & S2 & P & A).
  assert (WV : forall x y c, (0 <= x < w)%Z -> (0 <= y < h)%Z -> (0 <= c < n)%Z -> written rows n x y c = expected w depth image alpha x y c). { intros x y c X Y C. unfold written. destruct (R y Y) as (_ & R'). rewrite N in *. apply R'; auto. }
  assert (CH : forall x y c, (0 <= x < w)%Z -> (0 <= y < h)%Z -> (0 <= c < 3)%Z -> channel (aget im (y * w + x)%Z) c = fraction depth (lvl depth (channel (aget image (y * w + x)%Z) c))).
  { intros x y c X Y C. rewrite P by auto. assert (C3 : (3 <= n)%Z) by (rewrite N; unfold n_out; destruct alpha; lia). assert (c = 0 \/ c = 1 \/ c = 2)%Z as [->|[->| ->]] by lia; cbn [colour_of channel Z.eqb Pos.eqb]; rewrite WV by lia; unfold expected, comps; destruct (aget image (y * w + x)) as ((r & g) & b); reflexivity. }
  exists im, al. split; [exact E2|]. split; [|split].
  - intros x y c X Y C v F V. rewrite CH by auto. apply lvl_close; auto.
  - intros x y c k X Y C K V. rewrite CH, V by auto. rewrite lvl_fraction by auto. reflexivity.
  - destruct alpha as [a|]; cbn [andb] in A; auto. destruct A as (a' & -> & S3 & A). exists a'. split; auto. intros x y X Y v F V. rewrite A by auto. change (samples_of false true - 1)%Z with 3%Z. rewrite WV by (auto; unfold n, samples_of; lia). unfold expected, comps. destruct (aget image (y * w + x)) as ((r & g) & b). cbn [Z.eqb Pos.eqb option_map]. apply lvl_close; auto.
Qed.
(* a bundle read from a 16 bit file is written with 8 bits: the darkest gray becomes black *)
Theorem C125_depth_refuted : level read_bit_depth (fraction 16 1) = Ok 0%Z /\ lvl 16 (fraction 16 1) = 1%Z.
Proof.
  split; [|apply lvl_fraction; [auto|lia]]. pose proof (fraction_range 16 1 ltac:(auto) ltac:(lia)) as B. pose proof (frac_close 16 1 ltac:(auto) ltac:(lia)) as FC. change (2 ^ 16 - 1)%Z with 65535%Z in FC. apply Rabs_le_inv in FC.
  change read_bit_depth with 8%Z. rewrite (proj1 (lvl_ok 8 (fraction 16 1) ltac:(auto))). f_equal. unfold lvl. change (2 ^ 8 - 1)%Z with 255%Z. unfold out_uint. rewrite fl_clamp01 by (auto; apply fl_is_float). rewrite float_le24 by lia.
  rewrite (trunc_pos _ 0); [reflexivity|lia|]. set (v := fraction 16 1) in *. assert (V : 0 <= v <= / 1000) by lra.
  assert (A : 0 <= fl (v * 255) <= 1 / 4). { split; [rewrite <- fl_0; apply fl_mono; lra|]. rewrite <- (fl_id (1 / 4)) by (apply (float_frac 1 2); [lia|lia|cbn; lra]). apply fl_mono. lra. }
  split; [rewrite <- fl_0; apply fl_mono; lra|]. apply Rle_lt_trans with (3 / 4); [|lra]. rewrite <- (fl_id (3 / 4)) by (apply (float_frac 3 2); [lia|lia|cbn; lra]). apply fl_mono. lra.
Qed.
(* Colour spaces survive: sRGB, linear, and any gamma up to 1000 whose inverse is not within 0.0101 of 1 or of 0.45455. *)
Theorem C125_colour_space_partial : detect (write_chunks HsRGB 1) = (HsRGB, 1) /\ detect (write_chunks HLinear 1) = (HLinear, 1) /\
  forall g, 0 < g <= 1000 -> 101 / 10000 <= Rabs (1 / g - 1) -> 101 / 10000 <= Rabs (1 / g - 45455 / 100000) ->
    exists g', detect (write_chunks HGamma g) = (HGamma, g') /\ Rabs (g' - g) <= g * g / 100000.
Proof.
  split; [reflexivity|]. split.
  - unfold detect; cbn. destruct (Rlt_dec _ _) as [_|N]; auto. exfalso. apply N. replace (100000 / 100000 - 1) with 0 by field. rewrite Rabs_R0. lra.
  - intros g G N1 N2. unfold detect, write_chunks. cbn [has_icc has_srgb gama]. set (k := Zfloor _). pose proof (Zfloor_lb (100000 * (1 / g) + 1 / 2)) as LB. pose proof (Zfloor_ub (100000 * (1 / g) + 1 / 2)) as UB. fold k in LB, UB. cbv zeta. set (q := IZR k / 100000).
    assert (Q : Rabs (q - 1 / g) <= / 200000) by (unfold q; apply Rabs_le; lra).
    assert (I : / 1000 <= 1 / g) by (unfold Rdiv; rewrite Rmult_1_l; apply Rinv_le; lra). apply Rabs_le_inv in Q.
    destruct (Rlt_dec (Rabs (q - 1)) (1 / 100)) as [C|_]. { exfalso. apply Rabs_def2 in C. revert N1. unfold Rabs. destruct (Rcase_abs (1 / g - 1)); lra. }
    destruct (Rlt_dec (Rabs (q - 45455 / 100000)) (1 / 100)) as [C|_]. { exfalso. apply Rabs_def2 in C. revert N2. unfold Rabs. destruct (Rcase_abs (1 / g - 45455 / 100000)); lra. }
    exists (1 / q). split; auto. assert (Q0 : 0 < q) by lra. assert (GQ : 199 / 200 <= g * q). { assert (g * (1 / g) = 1) by (field; lra). nra. }
    assert (E : (1 / q - g) * q = (1 / g - q) * g) by (field; lra). set (d := 1 / q - g) in *. assert (AD : Rabs d * q = Rabs (1 / g - q) * g) by (rewrite <- (Rabs_pos_eq q) at 1 by lra; rewrite <- (Rabs_pos_eq g) at 2 by lra; rewrite <- !Rabs_mult, E; reflexivity).
    assert (AQ : Rabs (1 / g - q) <= / 200000) by (apply Rabs_le; lra). pose proof (Rabs_pos d). assert (Rabs d * q <= g * / 200000) by nra. assert (Rabs d * (g * q) <= g * (g * / 200000)) by nra. nra.
Qed.
(* files from other programs: a profile hides everything else, then the sRGB chunk, then gAMA; a file without any of them counts as sRGB *)
Theorem C125_chunk_order : forall srgb g, detect (Chunks true srgb g) = (HUnknown, 1) /\ detect (Chunks false true g) = (HsRGB, 1) /\ detect (Chunks false false None) = (HsRGB, 1).
Proof. intros. repeat split. Qed.
(* gamma 2.2 comes back as sRGB, and so does an image of unknown colour space *)
Theorem C125_gamma_refuted : detect (write_chunks HGamma (22 / 10)) = (HsRGB, 1) /\ detect (write_chunks HUnknown 1) = (HsRGB, 1).
Proof.
  split; [|reflexivity]. unfold detect, write_chunks. cbn [has_icc has_srgb gama]. replace (Zfloor (100000 * (1 / (22 / 10)) + 1 / 2)) with 45455%Z by (symmetry; apply Zfloor_imp; cbn; lra). cbv zeta.
  destruct (Rlt_dec (Rabs (45455 / 100000 - 1)) (1 / 100)) as [C|_]; [exfalso; apply Rabs_def2 in C; lra|]. destruct (Rlt_dec _ _) as [_|C]; auto. exfalso. apply C. replace (45455 / 100000 - 45455 / 100000) with 0 by ring. rewrite Rabs_R0. lra.
Qed.
(* witness: a 1 x 2 gray picture of 16 bits with alpha *)
Example C125_nonvacuous : let raw := of_list [0; 128; 255; 255; 52; 18; 0; 0]%Z in let S := fun x y c => nth (Z.to_nat (2 * y + c)) [32768; 65535; 4660; 0]%Z 0%Z in
  holds 1 2 (samples_of true true) 16 raw S /\ sensible [25; 8; 100]%Z /\
  exists im a, read_png 1 2 16 true true raw true = Ok (im, Some a) /\ aget im 1%Z = (fraction 16 4660, fraction 16 4660, fraction 16 4660) /\ aget a 0%Z = 1 /\ aget a 1%Z = 0.
Proof.
  cbn zeta. assert (HO : holds 1 2 (samples_of true true) 16 (of_list [0; 128; 255; 255; 52; 18; 0; 0]%Z) (fun x y c => nth (Z.to_nat (2 * y + c)) [32768; 65535; 4660; 0]%Z 0%Z)).
  { split; [reflexivity|]. change (samples_of true true) with 2%Z. intros x y c X Y C. assert (x = 0%Z) as -> by lia. assert (y = 0 \/ y = 1)%Z as [->| ->] by lia; assert (c = 0 \/ c = 1)%Z as [->| ->] by lia; (split; [split; reflexivity || discriminate|reflexivity]). }
  split; auto. split; [repeat constructor; lia|].
  destruct (C125_pixels_partial 1 2 16 true true _ _ true ltac:(auto) ltac:(lia) ltac:(lia) ltac:(lia) HO) as (im & al & E & _ & P & a & -> & _ & A). exists im, a. split; auto.
  pose proof (P 0%Z 1%Z ltac:(lia) ltac:(lia)) as P1. pose proof (A 0%Z 0%Z ltac:(lia) ltac:(lia)) as A0. pose proof (A 0%Z 1%Z ltac:(lia) ltac:(lia)) as A1. 
  change (aget im 1%Z = (fraction 16 4660, fraction 16 4660, fraction 16 4660)) in P1. change (aget a 0%Z = fraction 16 65535) in A0. change (aget a 1%Z = fraction 16 0) in A1. rewrite P1, A0, A1. split; auto.
  unfold fraction. change (2 ^ 16 - 1)%Z with 65535%Z. split; [replace (65535 / 65535) with 1 by field; apply fl_1|replace (0 / 65535) with 0 by field; apply fl_0].
Qed.
