(* C126: JPEG images are read as TurboJPEG decodes them and written completely; nothing stays open. *)
From Verif Require Import Common Vec3 Float32 DecodeModel DecodeProofs PixelModel PixelProofs TiffModel TiffProofs TextureModel SrgbModel PngModel PngProps JpegModel.
From Coq Require Import Reals Lra.
From Flocq Require Import Core.
Open Scope R_scope.

(** Specification *)
(* everything taken is given back, once, after it was taken *)
Fixpoint left_open (open : list resource) (ev : list event) : option (list resource) :=
  match ev with
  | [] => Some open
  | Acquire r :: t => left_open (r :: open) t
  | Release r :: t =>
      (fix take (before after : list resource) : option (list resource) :=
        match after with
        | [] => None
        | x :: a => if match x, r with Handle, Handle => true | Buffer, Buffer => true | File, File => true | _, _ => false end then left_open (before ++ a) t else take (before ++ [x]) a
        end) [] open
  | _ :: t => left_open open t
  end.
Definition all_given_back (ev : list event) : Prop := left_open [] ev = Some [].
Definition file_after (ev : list event) : option (list Z) := fold_left (fun o e => match e with FileHolds l => Some l | _ => o end) ev None.

(** Proofs *)
Lemma intv_ok n : (- 2 ^ 31 <= n < 2 ^ 31)%Z -> intv n = Ok n.
Proof. intros N. unfold intv. replace ((- 2 ^ 31 <=? n) && (n <? 2 ^ 31))%bool%Z with true by lia. reflexivity. Qed.
Lemma byte_ok raw i v : (0 <= i < asz raw)%Z -> (i < 2 ^ 62)%Z -> aget raw i = v -> (0 <= v < 256)%Z -> jpeg_byte raw i = Ok (fraction 8 v).
Proof. intros I B <- V. unfold jpeg_byte. rewrite sz_small by lia. rewrite rd_ok by lia. cbn [obind]. rewrite value_fraction by (auto; cbn; lia). reflexivity. Qed.
Section Decoding.
Variables (w h : Z) (f : Z -> Z).
Hypothesis W : (0 <= w)%Z. Hypothesis H : (0 <= h)%Z.
Lemma rgb_ok : (w * h * 3 < 2 ^ 31)%Z -> (forall i, (0 <= i < w * h * 3)%Z -> (0 <= f i < 256)%Z) ->
  exists im, read_jpeg_pixels w h (Arr (w * h * 3) f) = Ok im /\ asz im = (w * h)%Z /\
  forall x y, (0 <= x < w)%Z -> (0 <= y < h)%Z -> let i := ((y * w + x) * 3)%Z in aget im (y * w + x)%Z = (fraction 8 (f i), fraction 8 (f (i + 1)%Z), fraction 8 (f (i + 2)%Z)).
Proof.
  intros WH F. unfold read_jpeg_pixels. rewrite (intv_ok (w * h)) by nia. cbn [obind].
  set (sh := fun st : array (R * R * R) => asz st = (w * h)%Z). set (wm := fun p : Z => (fraction 8 (f (p * 3)%Z), fraction 8 (f (p * 3 + 1)%Z), fraction 8 (f (p * 3 + 2)%Z))).
  set (rt := fun (st : array (R * R * R)) (ch p : Z) => aget st p = wm p).
  match goal with |- context [for_ ?n ?f ?s] => assert (A : adv sh rt (for_ n f) (fun ch p => exists y, (0 <= y < h)%Z /\ exists x, (0 <= x < w)%Z /\ p = (y * w + x)%Z)); [|set (st0 := s)] end.
  - eapply adv_weaken; [apply adv_for with (D := fun y ch p => exists x, (0 <= x < w)%Z /\ p = (y * w + x)%Z)|].
    2:{ cbv beta. intros ch p (y & Y & x & X & ->). exists y. split; [lia|]. eauto. }
    intros y Y. eapply adv_weaken; [apply adv_for with (D := fun x ch p => p = (y * w + x)%Z)|]. 2:{ cbv beta. intros ch p (x & X & ->). exists x. split; [lia|auto]. }
    intros x X im S1. rewrite Z2Nat.id in X, Y by lia. assert (IX : (0 <= y * w + x < w * h)%Z) by nia. assert (IY : (0 <= y * w < 2 ^ 31)%Z) by nia.
    set (p0 := (y * w + x)%Z) in *. assert (Q : forall c, (0 <= c < 3)%Z -> jpeg_byte (Arr (w * h * 3) f) (p0 * 3 + c) = Ok (fraction 8 (f (p0 * 3 + c)%Z))).
    { intros c C. apply byte_ok; [cbn [asz]; lia|lia|reflexivity|apply F; lia]. }
    rewrite !Q by lia. cbn [obind]. rewrite intv_ok by lia. cbn [obind]. fold p0. rewrite Z.add_0_r. fold (wm p0). rewrite wr_ok by (unfold sh in S1; lia). eexists. split; [reflexivity|]. split; [exact S1|].
    intros ch p [R1|E]; unfold rt in *; cbn [aget].
    * destruct (Z.eqb_spec p p0) as [->|]; auto.
    * subst p. rewrite Z.eqb_refl. auto.
  - destruct (A st0 eq_refl) as (s1 & -> & S1 & R1). eexists. split; [reflexivity|]. split; auto.
    intros x y X Y. cbv zeta. rewrite (R1 0%Z (y * w + x)%Z) by (right; eauto 6). reflexivity.
Qed.
Lemma gray_ok : (w * h < 2 ^ 31)%Z -> (forall i, (0 <= i < w * h)%Z -> (0 <= f i < 256)%Z) ->
  exists im, read_jpeg_gray_pixels w h (Arr (w * h) f) = Ok im /\ asz im = (w * h)%Z /\ forall i, (0 <= i < w * h)%Z -> aget im i = fraction 8 (f i).
Proof.
  intros WH F. unfold read_jpeg_gray_pixels. rewrite (intv_ok (w * h)) by nia. cbn [obind].
  set (sh := fun st : array R => asz st = (w * h)%Z). set (rt := fun (st : array R) (ch p : Z) => aget st p = fraction 8 (f p)).
  match goal with |- context [for_ ?n ?f ?s] => assert (A : adv sh rt (for_ n f) (fun ch p => (0 <= p < w * h)%Z)); [|set (st0 := s)] end.
  - eapply adv_weaken; [apply adv_for with (D := fun i ch p => p = i)|]. 2:{ cbv beta. intros ch p P. exists p. split; [nia|auto]. }
    intros i I im S1. rewrite Z2Nat.id in I by nia. rewrite (byte_ok _ _ (f i)) by (cbn [asz]; auto; lia). cbn [obind]. rewrite wr_ok by (unfold sh in S1; lia). eexists. split; [reflexivity|]. split; [exact S1|].
    intros ch p [R1|E]; unfold rt in *; cbn [aget].
    * destruct (Z.eqb_spec p i) as [->|]; auto.
    * subst p. rewrite Z.eqb_refl. auto.
  - destruct (A st0 eq_refl) as (s1 & -> & S1 & R1). eexists. split; [reflexivity|]. split; auto. intros i I. apply (R1 0%Z). auto.
Qed.
End Decoding.
Section Encoding.
Variables (w h : Z) (image : array (R * R * R)).
Hypothesis W : (0 < w)%Z. Hypothesis H : (0 < h)%Z. Hypothesis WH : (w * h < 2 ^ 31)%Z.
Hypothesis SI : asz image = (w * h)%Z.
Lemma samples_ok : exists raw, jpeg_samples w h image = Ok raw /\ asz raw = (w * h * 3)%Z /\
  forall x y c, (0 <= x < w)%Z -> (0 <= y < h)%Z -> (0 <= c < 3)%Z -> aget raw ((y * w + x) * 3 + c)%Z = lvl 8 (channel (aget image (y * w + x)%Z) c).
Proof.
  unfold jpeg_samples. rewrite (sz_small (w * h * 3)) by lia.
  set (G := fun i : Z => lvl 8 (channel (aget image (i / 3)%Z) (i mod 3)%Z)).
  assert (GX : forall p c, (0 <= c < 3)%Z -> G (p * 3 + c)%Z = lvl 8 (channel (aget image p) c)). { intros p c C. unfold G. rewrite Z.add_comm, Z.div_add, Z_mod_plus_full by lia. rewrite Z.div_small, Z.mod_small by lia. reflexivity. }
  set (sh := fun st : arr => asz st = (w * h * 3)%Z). set (rt := fun (st : arr) (ch p : Z) => aget st p = G p).
  match goal with |- context [for_ ?n ?f ?s] => assert (A : adv sh rt (for_ n f) (fun ch p => exists y, (0 <= y < h)%Z /\ exists x, (0 <= x < w)%Z /\ exists c, (0 <= c < 3)%Z /\ p = ((y * w + x) * 3 + c)%Z)); [|set (st0 := s)] end.
  - eapply adv_weaken; [apply adv_for with (D := fun y ch p => exists x, (0 <= x < w)%Z /\ exists c, (0 <= c < 3)%Z /\ p = ((y * w + x) * 3 + c)%Z)|].
    2:{ cbv beta. intros ch p (y & Y & x & X & K). exists y. split; [lia|]. eauto. }
    intros y Y. eapply adv_weaken; [apply adv_for with (D := fun x ch p => exists c, (0 <= c < 3)%Z /\ p = ((y * w + x) * 3 + c)%Z)|]. 2:{ cbv beta. intros ch p (x & X & K). exists x. split; [lia|auto]. }
    intros x X st S1. rewrite Z2Nat.id in X, Y by lia. assert (IX : (0 <= y * w + x < w * h)%Z) by nia. set (p0 := (y * w + x)%Z) in *. unfold sh in S1.
    rewrite (sz_small (p0 * 3)) by lia. rewrite rd_ok by lia. cbn [obind]. destruct (aget image p0) as ((r & g) & b) eqn:EP.
    rewrite (proj1 (lvl_ok 8 r ltac:(auto))). cbn [obind]. destruct (wr_right st (p0 * 3 + 0) (lvl 8 r) G) as (r1 & -> & S2 & R2); [lia|rewrite GX, EP by lia; reflexivity|]. cbn [obind].
    rewrite (proj1 (lvl_ok 8 g ltac:(auto))). cbn [obind]. destruct (wr_right r1 (p0 * 3 + 1) (lvl 8 g) G) as (r2 & -> & S3 & R3); [lia|rewrite GX, EP by lia; reflexivity|]. cbn [obind].
    rewrite (proj1 (lvl_ok 8 b ltac:(auto))). cbn [obind]. destruct (wr_right r2 (p0 * 3 + 2) (lvl 8 b) G) as (r3 & -> & S4 & R4); [lia|rewrite GX, EP by lia; reflexivity|].
    exists r3. split; auto. split; [unfold sh; congruence|]. intros ch p [K|(c & C & ->)]; unfold rt in *; [apply R4; left; apply R3; left; apply R2; left; auto|].
    assert (c = 0 \/ c = 1 \/ c = 2)%Z as [->|[->| ->]] by lia; [apply R4; left; apply R3; left; apply R2; auto|apply R4; left; apply R3; auto|apply R4; auto].
  - destruct (A st0 eq_refl) as (s1 & -> & S1 & R1). exists s1. split; auto. split; auto. intros x y c X Y C. rewrite <- GX by auto. apply (R1 0%Z). right. eauto 10.
Qed.
End Encoding.
Lemma raw_ok d (gray : bool) w h f : d_init d = true -> d_header d = Some (w, h) -> (0 <= w)%Z -> (0 <= h)%Z -> (w * h * (if gray then 1 else 3) < 2 ^ 31)%Z -> d_pixels d gray = Some f ->
  read_jpeg_raw d gray = ([Acquire Handle; Release Handle], Ok (w, h, Arr (w * h * (if gray then 1 else 3)) f)).
Proof. intros I HD W H B P. unfold read_jpeg_raw. rewrite I, HD, P. cbn [negb]. rewrite (intv_ok (w * h)) by (destruct gray; nia). cbn [obind]. rewrite intv_ok by (destruct gray; nia). reflexivity. Qed.

(** Theorems *)
(* what TurboJPEG decodes: sample c of pixel (x, y), with 1 (gray) or 3 samples per pixel *)
Definition decodes (d : decoder) (gray : bool) (w h : Z) (S : Z -> Z -> Z -> Z) : Prop := let n := if gray then 1%Z else 3%Z in
  d_init d = true /\ d_header d = Some (w, h) /\ (0 < w)%Z /\ (0 < h)%Z /\ exists f, d_pixels d gray = Some f /\
  (forall i, (0 <= i < w * h * n)%Z -> (0 <= f i < 256)%Z) /\ forall x y c, (0 <= x < w)%Z -> (0 <= y < h)%Z -> (0 <= c < n)%Z -> f ((y * w + x) * n + c)%Z = S x y c.
Theorem C126_pixels_partial : forall d w h S, decodes d false w h S -> (w * h * 3 < 2 ^ 31)%Z ->
  exists im, read_jpeg d = ([Acquire Handle; Release Handle], Ok (w, h, im, HsRGB)) /\ asz im = (w * h)%Z /\
  forall x y, (0 <= x < w)%Z -> (0 <= y < h)%Z -> aget im (y * w + x)%Z = (fraction 8 (S x y 0%Z), fraction 8 (S x y 1%Z), fraction 8 (S x y 2%Z)).
Proof.
  intros d w h S (I & HD & W & H & f & P & B & E) WH. destruct (rgb_ok w h f ltac:(lia) ltac:(lia) WH B) as (im & R & SZ & G). exists im. unfold read_jpeg. rewrite (raw_ok d false w h f) by (auto; lia). cbn [obind]. rewrite R. cbn [obind]. split; auto. split; auto.
  intros x y X Y. rewrite G by auto. cbv zeta. rewrite <- !E by (auto; lia). rewrite Z.add_0_r. reflexivity.
Qed.
Theorem C126_mono_partial : forall d w h S, decodes d true w h S -> (w * h < 2 ^ 31)%Z ->
  exists im, read_jpeg_mono d = ([Acquire Handle; Release Handle], Ok (w, h, im, HsRGB)) /\ asz im = (w * h)%Z /\
  forall x y, (0 <= x < w)%Z -> (0 <= y < h)%Z -> aget im (y * w + x)%Z = fraction 8 (S x y 0%Z).
Proof.
  intros d w h S (I & HD & W & H & f & P & B & E) WH. cbn zeta in *. rewrite Z.mul_1_r in B. destruct (gray_ok w h f ltac:(lia) ltac:(lia) WH B) as (im & R & SZ & G). exists im. unfold read_jpeg_mono. rewrite (raw_ok d true w h f) by (auto; lia). cbn [obind]. rewrite Z.mul_1_r, R. cbn [obind]. split; auto. split; auto.
  intros x y X Y. rewrite G by nia. rewrite <- E by (auto; lia). do 2 f_equal. lia.
Qed.
(* the JPEG standard allows 65535 x 65535 pixels; beyond 2^31 bytes the size of the buffer overflows an int *)
Theorem C126_large_refuted : forall d w h, d_init d = true -> d_header d = Some (w, h) -> (0 < w)%Z -> (0 < h)%Z ->
  ((2 ^ 31 <= w * h * 3)%Z -> snd (read_jpeg d) = UB) /\ ((2 ^ 31 <= w * h)%Z -> snd (read_jpeg_mono d) = UB).
Proof.
  intros d w h I HD W H. unfold read_jpeg, read_jpeg_mono, read_jpeg_raw. rewrite I, HD. cbn [negb]. unfold intv. split; intros L.
  - destruct ((- 2 ^ 31 <=? w * h) && (w * h <? 2 ^ 31))%bool%Z eqn:E; cbn [obind]; [|reflexivity]. replace ((- 2 ^ 31 <=? w * h * 3) && (w * h * 3 <? 2 ^ 31))%bool%Z with false by lia. reflexivity.
  - replace ((- 2 ^ 31 <=? w * h) && (w * h <? 2 ^ 31))%bool%Z with false by lia. reflexivity.
Qed.
(* The documentation promises linear light: a mid gray of 188 would be near 0.5, but 188/255 is returned. *)
Theorem C126_linear_refuted : forall d S, decodes d false 1 1 S -> S 0%Z 0%Z 0%Z = 188%Z ->
  exists im, snd (read_jpeg d) = Ok (1%Z, 1%Z, im, HsRGB) /\ fst (fst (aget im 0%Z)) > srgb_to_linear (188 / 255) + 1 / 10.
Proof.
  intros d S D V. destruct (C126_pixels_partial d 1 1 S D ltac:(lia)) as (im & E & _ & G). exists im. rewrite E. split; auto. specialize (G 0%Z 0%Z ltac:(lia) ltac:(lia)). change (0 * 1 + 0)%Z with 0%Z in G. rewrite G, V. cbn [fst].
  pose proof (frac_close 8 188 ltac:(auto) ltac:(cbn; lia)) as FC. change (2 ^ 8 - 1)%Z with 255%Z in FC. apply Rabs_le_inv in FC. unfold srgb_to_linear. destruct (Rleb (188 / 255) (4045 / 100000)) eqn:L; [apply Rleb_true in L; lra|].
  set (q := (188 / 255 + 55 / 1000) / (1055 / 1000)). assert (Q : 0 < q < 1) by (unfold q; lra).
  assert (P : Rpower q (24 / 10) < Rpower q 2). { unfold Rpower. apply exp_increasing. assert (ln q < 0) by (rewrite <- ln_1; apply ln_increasing; lra). lra. }
  replace (Rpower q 2) with (q * q) in P. 2:{ replace 2 with (INR 2) by (cbn; lra). rewrite Rpower_pow by lra. cbn. ring. }
  assert (q <= 751 / 1000) by (unfold q; lra). assert (q * q <= 57 / 100) by nra. lra.
Qed.
(* "averages the RGB channels": a pure red (254, 0, 0), whose JFIF luma is 76, is read as 76/255, not 254/3/255. *)
Theorem C126_mean_refuted : exists d S L, decodes d false 1 1 S /\ decodes d true 1 1 L /\ S 0%Z 0%Z 0%Z = 254%Z /\ S 0%Z 0%Z 1%Z = 0%Z /\ S 0%Z 0%Z 2%Z = 0%Z /\
  Rabs (299 / 1000 * 254 - IZR (L 0%Z 0%Z 0%Z)) <= 1 / 2 /\
  exists im, snd (read_jpeg_mono d) = Ok (1%Z, 1%Z, im, HsRGB) /\ aget im 0%Z < 254 / 3 / 255 - 3 / 100.
Proof.
  set (S := fun x y c : Z => if (c =? 0)%Z then 254%Z else 0%Z). set (L := fun x y c : Z => 76%Z).
  set (d := Decoder true (Some (1, 1)%Z) (fun gray => Some (fun i => if gray then 76%Z else if (i =? 0)%Z then 254%Z else 0%Z))).
  assert (D1 : decodes d false 1 1 S). { split; [reflexivity|]. split; [reflexivity|]. split; [lia|]. split; [lia|]. eexists. split; [reflexivity|]. split; [intros i I; destruct (i =? 0)%Z; lia|]. intros x y c X Y C. unfold S. replace ((y * 1 + x) * 3 + c)%Z with c by lia. reflexivity. }
  assert (D2 : decodes d true 1 1 L). { split; [reflexivity|]. split; [reflexivity|]. split; [lia|]. split; [lia|]. eexists. split; [reflexivity|]. split; [intros i I; lia|]. reflexivity. }
  exists d, S, L. split; auto. split; auto. split; auto. split; auto. split; auto. split; [unfold L; apply Rabs_le; lra|].
  destruct (C126_mono_partial d 1 1 L D2 ltac:(lia)) as (im & E & _ & G). exists im. rewrite E. split; auto. specialize (G 0%Z 0%Z ltac:(lia) ltac:(lia)). change (0 * 1 + 0)%Z with 0%Z in G. rewrite G. unfold L.
  pose proof (frac_close 8 76 ltac:(auto) ltac:(cbn; lia)) as FC. change (2 ^ 8 - 1)%Z with 255%Z in FC. apply Rabs_le_inv in FC. lra.
Qed.
(* Reading ends with an error exactly when TurboJPEG reports one, and always gives the decompressor back. *)
Theorem C126_read_errors_partial : forall d (gray : bool), (forall w h, d_header d = Some (w, h) -> (0 <= w)%Z /\ (0 <= h)%Z /\ (w * h * (if gray then 1 else 3) < 2 ^ 31)%Z) ->
  let r := read_jpeg_raw d gray in all_given_back (fst r) /\ (snd r = Throws <-> d_init d = false \/ d_header d = None \/ d_pixels d gray = None) /\ snd r <> UB.
Proof.
  intros d gray B. unfold read_jpeg_raw. destruct (d_init d); cbn [negb]. 2:{ cbn. split; [reflexivity|]. split; [|discriminate]. split; auto. }
  destruct (d_header d) as [(w & h)|]. 2:{ cbn. split; [reflexivity|]. split; [|discriminate]. split; auto. }
  destruct (B w h eq_refl) as (W & H & L). rewrite (intv_ok (w * h)) by (destruct gray; nia). cbn [obind]. rewrite intv_ok by (destruct gray; nia). destruct (d_pixels d gray); cbn; (split; [reflexivity|]); (split; [|discriminate]); split; auto; try discriminate.
  intros [?|[?|?]]; discriminate.
Qed.
(* Writing. *)
Definition picture_fits (w h : Z) (image : array (R * R * R)) : Prop := (0 <= w)%Z /\ (0 <= h)%Z /\ (w * h < 2 ^ 31)%Z /\ asz image = (w * h)%Z.
(* An empty picture or a quality outside 1 to 100 is an error and nothing is touched. *)
Theorem C126_bad_arguments : forall e w h quality image, (w = 0 \/ h = 0 \/ quality < 1 \/ 100 < quality)%Z -> write_jpeg e w h quality image = ([], Throws).
Proof. intros e w h q im B. unfold write_jpeg. destruct ((w =? 0) || (h =? 0))%bool%Z eqn:E; auto. replace ((q <? 1) || (100 <? q))%bool%Z with true by lia. reflexivity. Qed.
(* Otherwise TurboJPEG gets the picture's levels row by row; the call returns only if the whole stream was accepted; everything is given back
   unless a failed compression leaves a buffer. *)
Theorem C126_write_partial : forall e w h quality image, picture_fits w h image -> (w <> 0 /\ h <> 0 /\ 1 <= quality <= 100)%Z ->
  exists raw, asz raw = (w * h * 3)%Z /\
  (forall x y c, (0 <= x < w)%Z -> (0 <= y < h)%Z -> (0 <= c < 3)%Z -> aget raw ((y * w + x) * 3 + c)%Z = lvl 8 (channel (aget image (y * w + x)%Z) c)) /\
  let r := write_jpeg e w h quality image in snd r <> UB /\
  (snd r = Ok tt -> e_init e = true /\ e_open e = true /\ exists stream, e_compress e raw quality = Done stream /\ (List.length stream <= e_accepts e stream)%nat /\
     ((List.length stream <= e_flushes e stream)%nat -> file_after (fst r) = Some stream)) /\
  (e_init e = true -> e_open e = true -> forall stream, e_compress e raw quality = Done stream -> (List.length stream <= e_accepts e stream)%nat -> snd r = Ok tt) /\
  (e_compress e raw quality <> Failed true -> all_given_back (fst r)).
Proof.
  intros e w h q im (W & H & WH & SI) (W0 & H0 & Q). destruct (samples_ok w h im ltac:(lia) ltac:(lia) WH SI) as (raw & E & SZ & G). exists raw. split; auto. split; auto.
  unfold write_jpeg. replace ((w =? 0) || (h =? 0))%bool%Z with false by lia. replace ((q <? 1) || (100 <? q))%bool%Z with false by lia. rewrite E.
  destruct (e_init e); cbn [negb]. 2:{ cbn. repeat split; discriminate. }
  destruct (e_compress e raw q) as [l|stays] eqn:EC. 2:{ destruct stays; cbn; (split; [discriminate|]); (split; [discriminate|]); (split; [discriminate|]); [congruence|reflexivity]. }
  destruct (e_open e); cbn [negb]. 2:{ cbn. split; [discriminate|]. split; [discriminate|]. split; [discriminate|reflexivity]. }
  cbv zeta. cbn [fst snd]. destruct (Nat.eqb_spec (List.length (firstn (e_accepts e l) l)) (List.length l)) as [EL|NL]; cbn [negb].
  - rewrite firstn_length in EL. assert (FA : firstn (e_accepts e l) l = l) by (apply firstn_all2; lia). split; [discriminate|]. split; [|split; [auto|reflexivity]]. intros _. split; auto. split; auto. exists l. split; auto. split; [lia|]. intros FL. cbn. rewrite FA, firstn_all2 by auto. reflexivity.
  - split; [discriminate|]. split; [discriminate|]. split; [|reflexivity]. intros _ _ l' [= <-] A. exfalso. apply NL. rewrite firstn_all2; auto.
Qed.
(* a failed compression that leaves a buffer: the buffer is never freed *)
Theorem C126_leak_refuted : exists e, snd (write_jpeg e 1 1 95 (Arr 1 (fun _ => (0, 0, 0)))) = Throws /\ left_open [] (fst (write_jpeg e 1 1 95 (Arr 1 (fun _ => (0, 0, 0))))) = Some [Buffer].
Proof.
  exists (Encoder true (fun _ _ => Failed true) true (fun l => List.length l) (fun l => List.length l)).
  destruct (samples_ok 1 1 (Arr 1 (fun _ => (0, 0, 0))) ltac:(lia) ltac:(lia) ltac:(lia) eq_refl) as (raw & E & _). unfold write_jpeg. replace ((1 =? 0) || (1 =? 0))%bool%Z with false by reflexivity. replace ((95 <? 1) || (100 <? 95))%bool%Z with false by reflexivity. rewrite E. cbn. auto.
Qed.
(* fclose is not checked: a disk that fills up at the final flush leaves an empty file and no error *)
Theorem C126_flush_refuted : exists e stream, snd (write_jpeg e 1 1 95 (Arr 1 (fun _ => (0, 0, 0)))) = Ok tt /\ stream <> [] /\ (forall raw, e_compress e raw 95 = Done stream) /\
  file_after (fst (write_jpeg e 1 1 95 (Arr 1 (fun _ => (0, 0, 0))))) = Some [].
Proof.
  exists (Encoder true (fun _ _ => Done [255; 216; 255; 217]%Z) true (fun l => List.length l) (fun l => 0%nat)), [255; 216; 255; 217]%Z.
  destruct (samples_ok 1 1 (Arr 1 (fun _ => (0, 0, 0))) ltac:(lia) ltac:(lia) ltac:(lia) eq_refl) as (raw & E & _). unfold write_jpeg. replace ((1 =? 0) || (1 =? 0))%bool%Z with false by reflexivity. replace ((95 <? 1) || (100 <? 95))%bool%Z with false by reflexivity. rewrite E. cbn. repeat split; discriminate.
Qed.
(* Written and read back: if decoding is within k levels of what was compressed, each colour is within k + 1/2 levels. *)
Theorem C126_round_trip_partial : forall e d w h quality image k, picture_fits w h image -> (w <> 0 /\ h <> 0)%Z -> (w * h * 3 < 2 ^ 31)%Z -> snd (write_jpeg e w h quality image) = Ok tt ->
  (forall raw stream, e_compress e raw quality = Done stream -> exists S, decodes d false w h S /\ forall x y c, (0 <= x < w)%Z -> (0 <= y < h)%Z -> (0 <= c < 3)%Z -> (Z.abs (S x y c - aget raw ((y * w + x) * 3 + c)) <= k)%Z) ->
  exists im, snd (read_jpeg d) = Ok (w, h, im, HsRGB) /\
  forall x y c, (0 <= x < w)%Z -> (0 <= y < h)%Z -> (0 <= c < 3)%Z -> let v := channel (aget image (y * w + x)%Z) c in is_float v -> 0 <= v <= 1 ->
    Rabs (channel (aget im (y * w + x)%Z) c - v) <= (IZR k + 1 / 2) / 255 + / 2 ^ 20.
Proof.
  intros e d w h q im k P N B OK CL. assert (Q : (1 <= q <= 100)%Z). { destruct (Z.le_gt_cases 1 q); [destruct (Z.le_gt_cases q 100); [lia|]|]; rewrite C126_bad_arguments in OK by lia; discriminate. }
  destruct (C126_write_partial e w h q im P ltac:(tauto)) as (raw & _ & G & _ & R & _). destruct (R OK) as (_ & _ & st & EC & _). destruct (CL raw st EC) as (S & D & NEAR).
  destruct (C126_pixels_partial d w h S D B) as (im' & E & _ & GP). exists im'. rewrite E. split; auto. intros x y c X Y C v F V.
  assert (CH : channel (aget im' (y * w + x)%Z) c = fraction 8 (S x y c)). { rewrite GP by auto. assert (c = 0 \/ c = 1 \/ c = 2)%Z as [->|[->| ->]] by lia; reflexivity. }
  rewrite CH. specialize (NEAR x y c X Y C). rewrite G in NEAR by auto. fold v in NEAR. pose proof (proj2 (lvl_ok 8 v ltac:(auto))) as LB. pose proof (lvl_close 8 v ltac:(auto) F V) as LC. pose proof (frac_close 8 _ ltac:(auto) LB) as FL.
  assert (SB : (0 <= S x y c < 2 ^ 8)%Z). { destruct D as (_ & _ & W & H & f & _ & BF & EF). rewrite <- EF by auto. apply BF. assert (0 <= y * w + x < w * h)%Z by nia. lia. }
  pose proof (frac_close 8 _ ltac:(auto) SB) as FS. change (2 ^ 8 - 1)%Z with 255%Z in *. apply Rabs_le_inv in LC, FL, FS.
  assert (K : Rabs (IZR (S x y c) - IZR (lvl 8 v)) <= IZR k). { rewrite <- minus_IZR, <- abs_IZR. apply IZR_le. lia. } apply Rabs_le_inv in K. apply Rabs_le. lra.
Qed.
(* witness: a 2 x 1 picture through a lossless pair *)
Example C126_nonvacuous : let im := Arr 2 (fun i => if (i =? 0)%Z then (1, 0, 1) else (0, 0, 1)) in let e := Encoder true (fun _ _ => Done [1; 2]%Z) true (fun l => List.length l) (fun l => List.length l) in
  picture_fits 2 1 im /\ snd (write_jpeg e 2 1 95 im) = Ok tt /\ file_after (fst (write_jpeg e 2 1 95 im)) = Some [1; 2]%Z /\
  exists d S, decodes d false 2 1 S /\ S 1%Z 0%Z 2%Z = 255%Z.
Proof.
  cbn zeta. assert (P : picture_fits 2 1 (Arr 2 (fun i => if (i =? 0)%Z then (1, 0, 1) else (0, 0, 1)))) by (repeat split; cbn; lia).
  set (e := Encoder true (fun _ _ => Done [1; 2]%Z) true (fun l => List.length l) (fun l => List.length l)).
  destruct (C126_write_partial e 2 1 95 _ P ltac:(lia)) as (raw & _ & _ & _ & F & G & _). assert (OK := G eq_refl eq_refl [1; 2]%Z eq_refl ltac:(cbn; lia)). split; auto. split; auto.
  split. { destruct (F OK) as (_ & _ & st & [= <-] & _ & FL). apply FL. cbn. lia. }
  exists (Decoder true (Some (2, 1)%Z) (fun _ => Some (fun i => if (i =? 5)%Z then 255%Z else 7%Z))), (fun x y c => if ((y * 2 + x) * 3 + c =? 5)%Z then 255%Z else 7%Z). split; [|reflexivity].
  split; [reflexivity|]. split; [reflexivity|]. split; [lia|]. split; [lia|]. eexists. split; [reflexivity|]. split; [intros i _; destruct (i =? 5)%Z; lia|reflexivity].
Qed.
