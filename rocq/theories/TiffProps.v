(* C123: TIFF images read as they are stored. *)
From Verif Require Import Common Float32 DecodeModel DecodeSpec DecodeProofs PixelModel PixelProofs TiffModel TiffProofs.
From Coq Require Import Reals Lra.
From Flocq Require Import Core.
Open Scope Z_scope.

(** Specification *)
(* a TIFF file, as far as its pixels go: the byte k of sample ch at column x, row y *)
Definition stored := Z -> Z -> Z -> Z -> Z.
Definition sample_bytes (f : stored) (bps x y ch : Z) : list Z := map (f x y ch) (map Z.of_nat (seq 0 (Z.to_nat bps))).
(* what libtiff documents for its reads. A tile covers tw x th pixels from (tx, ty); pixels outside the image are padding. A scanline is one row *)
Definition tile_contig (f : stored) (spp bps w h tw th : Z) (read : Z -> Z -> Z -> option arr) : Prop := forall tx ty, 0 <= tx < w -> 0 <= ty < h -> (tw | tx) -> (th | ty) ->
  exists b, read tx ty 0 = Some b /\ asz b = tw * th * spp * bps /\ forall row col ch k, 0 <= row < th -> 0 <= col < tw -> 0 <= ch < spp -> 0 <= k < bps -> tx + col < w -> ty + row < h ->
    aget b (((row * tw + col) * spp + ch) * bps + k) = f (tx + col) (ty + row) ch k.
Definition tile_separate (f : stored) (spp bps w h tw th : Z) (read : Z -> Z -> Z -> option arr) : Prop := forall tx ty ch, 0 <= tx < w -> 0 <= ty < h -> (tw | tx) -> (th | ty) -> 0 <= ch < spp ->
  exists b, read tx ty ch = Some b /\ asz b = tw * th * bps /\ forall row col k, 0 <= row < th -> 0 <= col < tw -> 0 <= k < bps -> tx + col < w -> ty + row < h ->
    aget b ((row * tw + col) * bps + k) = f (tx + col) (ty + row) ch k.
Definition line_contig (f : stored) (spp bps w h : Z) (read : Z -> Z -> option arr) : Prop := forall y, 0 <= y < h ->
  exists b, read y 0 = Some b /\ asz b = w * spp * bps /\ forall x ch k, 0 <= x < w -> 0 <= ch < spp -> 0 <= k < bps -> aget b ((x * spp + ch) * bps + k) = f x y ch k.
Definition line_separate (f : stored) (spp bps w h : Z) (read : Z -> Z -> option arr) : Prop := forall y ch, 0 <= y < h -> 0 <= ch < spp ->
  exists b, read y ch = Some b /\ asz b = w * bps /\ forall x k, 0 <= x < w -> 0 <= k < bps -> aget b (x * bps + k) = f x y ch k.
(* the buffer a layout needs *)
Definition buffer_size (spp bps w tw th : Z) (l : layout) : Z :=
  match l with Tiled true => tw * th * spp * bps | Tiled false => tw * th * bps | Stripped true => w * spp * bps | Stripped false => w * bps end.
Definition delivers (f : stored) (spp bps w h tw th : Z) (rt : Z -> Z -> Z -> option arr) (rl : Z -> Z -> option arr) (l : layout) : Prop :=
  match l with
  | Tiled true => tile_contig f spp bps w h tw th rt | Tiled false => tile_separate f spp bps w h tw th rt
  | Stripped true => line_contig f spp bps w h rl | Stripped false => line_separate f spp bps w h rl
  end.

(** Decoding *)
Section Decode.
Context {A : Type} (convert : list Z -> A) (zero : A) (f : stored).
Variables spp bps w h tw th : Z.
Variables (rt : Z -> Z -> Z -> option arr) (rl : Z -> Z -> option arr).
Hypothesis (SPP : 0 < spp) (BPS : 0 < bps) (W : 0 < w) (H : 0 < h) (TW : 0 < tw) (TH : 0 < th).
Let shape (c : array (array A)) : Prop := asz c = spp /\ forall ch, 0 <= ch < spp -> asz (aget c ch) = w * h.
(* position p of channel ch holds the sample of its pixel *)
Let value (ch p : Z) : A := convert (sample_bytes f bps (p mod w) (p / w) ch).
Let right (c : array (array A)) (ch p : Z) : Prop := 0 <= ch < spp -> 0 <= p < w * h -> aget (aget c ch) p = value ch p.
Lemma put_adv ch p v : 0 <= ch < spp -> 0 <= p < w * h -> v = value ch p -> adv shape right (fun c => put c ch p v) (fun ch' p' => ch' = ch /\ p' = p).
Proof.
  intros C P V c (S1 & S2). unfold put. rewrite rd_ok by lia. cbn [obind]. rewrite wr_ok by (rewrite S2; auto). cbn [obind]. rewrite wr_ok by lia. eexists. split; [reflexivity|]. split.
  - split; cbn [asz aget]; auto. intros ch' C'. destruct (Z.eqb_spec ch' ch) as [->|]; cbn; auto.
  - intros ch' p' R C' P'. cbn [aget]. destruct (Z.eqb_spec ch' ch) as [->|N]; cbn [aget].
    + destruct (Z.eqb_spec p' p) as [->|N]; auto. destruct R as [R|(_ & ?)]; [apply R; auto|congruence].
    + destruct R as [R|(? & _)]; [apply R; auto|congruence].
Qed.
Lemma sample_ok buf o x y ch : 0 <= o -> o + bps <= asz buf -> o < 2 ^ 31 -> (forall k, 0 <= k < bps -> aget buf (o + k) = f x y ch k) -> sample convert bps buf (sz o) = Ok (convert (sample_bytes f bps x y ch)).
Proof.
  intros O L M G. unfold sample. rewrite sz_small, as_int_small by lia. rewrite (bytes_ok (Z.to_nat bps) buf o (f x y ch)) by (rewrite ?Z2Nat.id by lia; auto). reflexivity.
Qed.
Lemma value_at x y ch : 0 <= x < w -> value ch (y * w + x) = convert (sample_bytes f bps x y ch).
Proof. intros X. unfold value. rewrite Z.add_comm, Z.mod_add, Z.mod_small, Z.div_add, Z.div_small by lia. reflexivity. Qed.
Lemma pos_in x y : 0 <= x < w -> 0 <= y < h -> 0 <= y * w + x < w * h.
Proof. intros. apply grid_bound; auto. Qed.
(* one sample: read at o, put at (x, y) of channel ch *)
Lemma one_adv buf o x y ch : 0 <= o -> o + bps <= asz buf -> o < 2 ^ 31 -> (forall k, 0 <= k < bps -> aget buf (o + k) = f x y ch k) -> 0 <= x < w -> 0 <= y < h -> 0 <= ch < spp ->
  adv shape right (fun c => v <- sample convert bps buf (sz o) ;; put c ch (y * w + x) v) (fun ch' p' => ch' = ch /\ p' = y * w + x).
Proof. intros O L M G X Y C. rewrite (sample_ok buf o x y ch) by auto. cbn [obind]. apply put_adv; auto using pos_in. symmetry. apply value_at. auto. Qed.
Ltac idx := repeat match goal with H : 0 <= _ < Z.of_nat (Z.to_nat _) |- _ => rewrite Z2Nat.id in H by lia end.
Ltac idg := rewrite !Z2Nat.id by lia.
Lemma fin_lines (c : array (array A)) body : shape c -> adv shape right body (fun ch p => 0 <= ch < spp /\ exists y x, 0 <= y < h /\ 0 <= x < w /\ p = y * w + x) ->
  exists c', body c = Ok c' /\ asz c' = spp /\ forall x y ch, 0 <= x < w -> 0 <= y < h -> 0 <= ch < spp -> asz (aget c' ch) = w * h /\ aget (aget c' ch) (y * w + x) = convert (sample_bytes f bps x y ch).
Proof.
  intros S B. destruct (B c S) as (c' & E & (S1 & S2) & R). exists c'. split; auto. split; auto. intros x y ch X Y C. split; [apply S2; auto|]. rewrite <- value_at by auto.
  apply R; auto using pos_in. right. split; auto. exists y, x. auto.
Qed.
Lemma shape0 : shape (Arr spp (fun _ => Arr (w * h) (fun _ => zero))).
Proof. split; auto. Qed.
Lemma stripped_contig_ok : line_contig f spp bps w h rl -> w * spp * bps <= 2 ^ 31 ->
  adv shape right (stripped_contig convert spp bps w h rl) (fun ch p => 0 <= ch < spp /\ exists y x, 0 <= y < h /\ 0 <= x < w /\ p = y * w + x).
Proof.
  intros D M. unfold stripped_contig. eapply adv_weaken.
  - apply (adv_for shape right _ _ (fun y ch p => exists x, (0 <= x < Z.of_nat (Z.to_nat w)) /\ exists ch', (0 <= ch' < Z.of_nat (Z.to_nat spp)) /\ ch = ch' /\ p = y * w + x)).
    intros y Y. idx. destruct (D y Y) as (b & E & SZ & G). rewrite E. apply adv_for. intros x X. idx. cbv zeta. apply (adv_for shape right _ _ (fun ch' ch p => ch = ch' /\ p = y * w + x)). intros ch C. idx.
    assert (B1 : 0 <= x * spp * bps) by nia. assert (X1 : (x * spp + ch) * bps + bps <= w * spp * bps) by (assert (x * spp + ch + 1 <= w * spp) by nia; nia).
    assert (X0 : 0 <= (x * spp + ch) * bps) by nia. assert (X2 : x * spp * bps < 2 ^ 31) by nia.
    rewrite (sz_small (x * spp * bps)) by lia. replace (x * spp * bps + ch * bps) with ((x * spp + ch) * bps) by ring.
    apply one_adv; auto; try lia. 
  - intros ch p (C & y & x & Y & X & ->). exists y. idg. split; auto. exists x. split; auto. exists ch. auto.
Qed.
Lemma stripped_separate_ok : line_separate f spp bps w h rl -> w * bps <= 2 ^ 31 ->
  adv shape right (stripped_separate convert spp bps w h rl) (fun ch p => 0 <= ch < spp /\ exists y x, 0 <= y < h /\ 0 <= x < w /\ p = y * w + x).
Proof.
  intros D M. unfold stripped_separate. eapply adv_weaken.
  - apply (adv_for shape right _ _ (fun ch' ch p => exists y, (0 <= y < Z.of_nat (Z.to_nat h)) /\ exists x, (0 <= x < Z.of_nat (Z.to_nat w)) /\ ch = ch' /\ p = y * w + x)).
    intros ch C. idx. apply adv_for. intros y Y. idx. destruct (D y ch Y C) as (b & E & SZ & G). rewrite E. apply (adv_for shape right _ _ (fun x ch' p => ch' = ch /\ p = y * w + x)). intros x X. idx.
    assert (x * bps + bps <= w * bps) by nia. assert (0 <= x * bps) by nia. apply one_adv; auto; lia.
  - intros ch p (C & y & x & Y & X & ->). exists ch. idg. split; auto. exists y. split; auto. exists x. auto.
Qed.
Let shape2 (s : arr * array (array A)) := shape (snd s).
Let right2 (s : arr * array (array A)) := right (snd s).
Lemma adv_snd (b : arr) (body : array (array A) -> outcome (array (array A))) D : adv shape right body D -> adv shape2 right2 (fun st => c <- body (snd st) ;; Ok (b, c)) D.
Proof. intros B (b0 & c) S. destruct (B c S) as (c' & E & S' & R). cbn [snd]. rewrite E. exists (b, c'). auto. Qed.
Lemma adv_ext (f1 f2 : arr * array (array A) -> outcome (arr * array (array A))) D : (forall s, f1 s = f2 s) -> adv shape2 right2 f1 D -> adv shape2 right2 f2 D.
Proof. intros E B s S. destruct (B s S) as (s' & X & Y). exists s'. rewrite <- E. auto. Qed.
Lemma tiled_contig_ok : tile_contig f spp bps w h tw th rt -> tw * th * spp * bps <= 2 ^ 31 ->
  adv shape2 right2 (tiled_contig convert spp bps w h tw th rt) (fun ch p => 0 <= ch < spp /\ exists y x, 0 <= y < h /\ 0 <= x < w /\ p = y * w + x).
Proof.
  intros D M. unfold tiled_contig. eapply adv_weaken.
  - apply (adv_for shape2 right2 _ _ (fun j ch p => exists i, (0 <= i < Z.of_nat (tiles w tw)) /\ exists row, (0 <= row < Z.of_nat (Z.to_nat (Z.min th (h - j * th)))) /\ exists col, (0 <= col < Z.of_nat (Z.to_nat (Z.min tw (w - i * tw)))) /\
      exists ch', (0 <= ch' < Z.of_nat (Z.to_nat spp)) /\ ch = ch' /\ p = (j * th + row) * w + (i * tw + col))).
    intros j J. apply adv_for. intros i I. pose proof (tile_in h th j TH J) as TY. pose proof (tile_in w tw i TW I) as TX. destruct (D (i * tw) (j * th) TX TY (Z.divide_factor_r tw i) (Z.divide_factor_r th j)) as (b & E & SZ & G). cbv zeta. rewrite E.
    apply (adv_snd b (for_ _ _)). apply adv_for. intros row RW. rewrite Z2Nat.id in RW by lia. apply adv_for. intros col CL. rewrite Z2Nat.id in CL by lia. apply (adv_for shape right _ _ (fun ch' ch p => ch = ch' /\ p = (j * th + row) * w + (i * tw + col))). intros ch C. idx.
    assert (Q : row * tw + col + 1 <= tw * th) by nia. assert (Q0 : 0 <= row * tw + col) by nia. assert (Q1 : (row * tw + col) * spp + ch + 1 <= tw * th * spp) by nia. assert (Q2 : 0 <= (row * tw + col) * spp + ch) by nia.
    assert (X1 : ((row * tw + col) * spp + ch) * bps + bps <= tw * th * spp * bps) by nia. assert (X0 : 0 <= ((row * tw + col) * spp + ch) * bps) by nia. assert (B1 : 0 <= (row * tw + col) * spp * bps) by nia. assert (B2 : (row * tw + col) * spp * bps < 2 ^ 31) by nia.
    rewrite (sz_small ((row * tw + col) * spp * bps)) by lia. replace ((row * tw + col) * spp * bps + ch * bps) with (((row * tw + col) * spp + ch) * bps) by ring.
    apply one_adv; auto; try lia. intros k K. apply G; lia.
  - intros ch p (C & y & x & Y & X & ->). destruct (tile_of h th y TH Y) as (j & row & J & RW & ->). destruct (tile_of w tw x TW X) as (i & col & I & CL & ->). exists j. split; auto. exists i. split; auto.
    exists row. split; [rewrite Z2Nat.id by lia; auto|]. exists col. split; [rewrite Z2Nat.id by lia; auto|]. exists ch. idg. auto.
Qed.
Lemma tiled_separate_ok : tile_separate f spp bps w h tw th rt -> tw * th * bps <= 2 ^ 31 ->
  adv shape2 right2 (tiled_separate convert spp bps w h tw th rt) (fun ch p => 0 <= ch < spp /\ exists y x, 0 <= y < h /\ 0 <= x < w /\ p = y * w + x).
Proof.
  intros D M. unfold tiled_separate. eapply adv_weaken.
  - apply (adv_for shape2 right2 _ _ (fun ch' ch p => exists j, (0 <= j < Z.of_nat (tiles h th)) /\ exists i, (0 <= i < Z.of_nat (tiles w tw)) /\ exists row, (0 <= row < Z.of_nat (Z.to_nat (Z.min th (h - j * th)))) /\ exists col, (0 <= col < Z.of_nat (Z.to_nat (Z.min tw (w - i * tw)))) /\
      ch = ch' /\ p = (j * th + row) * w + (i * tw + col))).
    intros ch C. idx. apply adv_for. intros j J. apply adv_for. intros i I. pose proof (tile_in h th j TH J) as TY. pose proof (tile_in w tw i TW I) as TX. destruct (D (i * tw) (j * th) ch TX TY (Z.divide_factor_r tw i) (Z.divide_factor_r th j) C) as (b & E & SZ & G). cbv zeta. rewrite E.
    apply (adv_snd b (for_ _ _)). apply adv_for. intros row RW. rewrite Z2Nat.id in RW by lia. apply (adv_for shape right _ _ (fun col ch' p => ch' = ch /\ p = (j * th + row) * w + (i * tw + col))). intros col CL. rewrite Z2Nat.id in CL by lia.
    assert (Q : row * tw + col + 1 <= tw * th) by nia. assert (Q0 : 0 <= row * tw + col) by nia.
    assert (X1 : (row * tw + col) * bps + bps <= tw * th * bps) by nia. assert (X0 : 0 <= (row * tw + col) * bps) by nia.
    apply one_adv; auto; try lia. intros k K. apply G; lia.
  - intros ch p (C & y & x & Y & X & ->). destruct (tile_of h th y TH Y) as (j & row & J & RW & ->). destruct (tile_of w tw x TW X) as (i & col & I & CL & ->). exists ch. split; [idg; auto|]. exists j. split; auto. exists i. split; auto.
    exists row. split; [rewrite Z2Nat.id by lia; auto|]. exists col. split; [rewrite Z2Nat.id by lia; auto|]. auto.
Qed.
Lemma samples_ok ts l : delivers f spp bps w h tw th rt rl l -> buffer_size spp bps w tw th l <= 2 ^ 31 ->
  exists c, decode convert spp bps w h tw th rt rl zero ts l = Ok c /\ asz c = spp /\
    forall x y ch, 0 <= x < w -> 0 <= y < h -> 0 <= ch < spp -> asz (aget c ch) = w * h /\ aget (aget c ch) (y * w + x) = convert (sample_bytes f bps x y ch).
Proof.
  intros D M. unfold decode. destruct l as [[]|[]]; cbn [delivers buffer_size] in *.
  - pose proof (tiled_contig_ok D M) as B. apply (fin_lines _ (fun c => st <- tiled_contig convert spp bps w h tw th rt (Arr ts (fun _ => 0), c) ;; Ok (snd st))); [apply shape0|].
    intros c S. destruct (B (Arr ts (fun _ => 0), c) S) as ((b' & c') & E & S' & R). rewrite E. exists c'. auto.
  - pose proof (tiled_separate_ok D M) as B. apply (fin_lines _ (fun c => st <- tiled_separate convert spp bps w h tw th rt (Arr ts (fun _ => 0), c) ;; Ok (snd st))); [apply shape0|].
    intros c S. destruct (B (Arr ts (fun _ => 0), c) S) as ((b' & c') & E & S' & R). rewrite E. exists c'. auto.
  - apply fin_lines; auto using shape0. apply stripped_contig_ok; auto.
  - apply fin_lines; auto using shape0. apply stripped_separate_ok; auto.
Qed.
End Decode.
(* every layout of a file that libtiff reads without error, with a tile or line buffer of at most 2^31 bytes, is decoded without touching memory outside the buffers, and
   channel ch holds at row y, column x the converted sample of the file *)
Theorem C123_samples_partial : forall A (convert : list Z -> A) zero (f : stored) spp bps w h tw th rt rl tile_size l, 0 < spp -> 0 < bps -> 0 < w -> 0 < h -> 0 < tw -> 0 < th ->
  delivers f spp bps w h tw th rt rl l -> buffer_size spp bps w tw th l <= 2 ^ 31 ->
  exists c, decode convert spp bps w h tw th rt rl zero tile_size l = Ok c /\ asz c = spp /\
    forall x y ch, 0 <= x < w -> 0 <= y < h -> 0 <= ch < spp -> asz (aget c ch) = w * h /\ aget (aget c ch) (y * w + x) = convert (sample_bytes f bps x y ch).
Proof. intros A convert zero f spp bps w h tw th rt rl ts l SPP BPS W H TW TH D M. eapply samples_ok; eauto. Qed.
Print Assumptions C123_samples_partial.
(* a tile that cannot be read is not reported: the image shows the tile before it once more *)
Theorem C123_failing_tile_refuted : forall A (convert : list Z -> A) zero tw b rt rl, 0 < tw <= 2 ^ 31 -> asz b = tw -> rt 0 0 0 = Some b -> rt tw 0 0 = None ->
  exists c, decode convert 1 1 (2 * tw) 1 tw 1 rt rl zero tw (Tiled true) = Ok c /\ forall x, 0 <= x < tw -> aget (aget c 0) x = convert [aget b x] /\ aget (aget c 0) (tw + x) = convert [aget b x].
Proof.
  intros A convert zero tw b rt rl TW SB R0 R1. set (rt' := fun tx ty p : Z => Some b). set (f := fun x y ch k : Z => aget b (x mod tw)).
  assert (EQ : decode convert 1 1 (2 * tw) 1 tw 1 rt rl zero tw (Tiled true) = decode convert 1 1 (2 * tw) 1 tw 1 rt' rl zero tw (Tiled true)).
  { unfold decode, tiled_contig. assert (T1 : tiles 1 1 = 1%nat) by reflexivity. assert (T2 : tiles (2 * tw) tw = 2%nat). { unfold tiles. replace (2 * tw + tw - 1) with (tw - 1 + 2 * tw) by ring. rewrite Z.div_add by lia. rewrite Z.div_small by lia. reflexivity. }
    rewrite T1, T2. cbn [for_ obind]. replace (Z.of_nat 0 * tw) with 0 by ring. replace (Z.of_nat 1 * tw) with tw by lia. replace (Z.of_nat 0 * 1) with 0 by ring.
    rewrite R0, R1. unfold rt'. cbn [snd]. match goal with |- obind (obind (obind ?q _) _) _ = _ => destruct q as [c| |]; reflexivity end. }
  rewrite EQ. destruct (C123_samples_partial A convert zero f 1 1 (2 * tw) 1 tw 1 rt' rl tw (Tiled true)) as (c & E & _ & R); try lia.
  - cbn [delivers]. intros tx ty TX TY (i & ->) _. exists b. split; [reflexivity|]. split; [lia|]. intros row col ch k RW CL CH K _ _. unfold f. replace row with 0 by lia. replace ch with 0 by lia. replace k with 0 by lia.
    replace ((i * tw + col) mod tw) with col; [f_equal; ring|]. rewrite Z.add_comm, Z.mod_add, Z.mod_small; lia.
  - cbn. lia.
  - exists c. split; auto. intros x X. split.
    + destruct (R x 0 0) as (_ & V); try lia. replace (0 * (2 * tw) + x) with x in V by ring. rewrite V. unfold sample_bytes, f. cbn. rewrite Z.mod_small by lia. reflexivity.
    + destruct (R (tw + x) 0 0) as (_ & V); try lia. replace (0 * (2 * tw) + (tw + x)) with (tw + x) in V by ring. rewrite V. unfold sample_bytes, f. cbn. replace (tw + x) with (x + 1 * tw) by ring. rewrite Z.mod_add, Z.mod_small by lia. reflexivity.
Qed.
Print Assumptions C123_failing_tile_refuted.
(* a row of more than 2^31 bytes is read from a negative offset *)
Lemma for_ub {S} n (g : Z -> S -> outcome S) s i s' : (i < n)%nat -> for_ i g s = Ok s' -> g (Z.of_nat i) s' = UB -> for_ n g s = UB.
Proof. intros L E U. induction n as [|n IH]; [lia|]. cbn [for_]. destruct (Nat.eq_dec i n) as [->|]; [rewrite E; cbn [obind]; rewrite U; reflexivity|rewrite IH by lia; reflexivity]. Qed.
Theorem C123_long_row_refuted : forall A (convert : list Z -> A) zero (f : stored) spp bps w h tw th rt rl tile_size x0, 0 < spp -> 0 < bps -> 0 < h -> x0 * spp * bps = 2 ^ 31 -> x0 < w ->
  line_contig f spp bps w h rl -> decode convert spp bps w h tw th rt rl zero tile_size (Stripped true) = UB.
Proof.
  intros A convert zero f spp bps w h tw th rt rl ts x0 SPP BPS H X0 W D. unfold decode, stripped_contig. assert (XP : 0 < x0) by nia.
  destruct (D 0 ltac:(lia)) as (b & E & SZ & G). set (c0 := Arr spp _).
  apply (for_ub _ _ _ 0 c0); [lia|reflexivity|]. change (Z.of_nat 0) with 0. rewrite E. set (g := fun (x : Z) (c : array (array A)) => _).
  pose (shape := fun c : array (array A) => asz c = spp /\ forall ch, 0 <= ch < spp -> asz (aget c ch) = w * h).
  assert (P : adv shape (fun _ _ _ => True) (for_ (Z.to_nat x0) g) (fun _ _ => False)).
  { eapply adv_weaken; [apply (adv_for _ _ _ _ (fun _ _ _ => False))|intros ch p []]. intros x X. rewrite Z2Nat.id in X by lia. unfold g. cbv zeta. eapply adv_weaken; [apply (adv_for _ _ _ _ (fun _ _ _ => False))|intros ch p []]. intros ch C. rewrite Z2Nat.id in C by lia.
    assert (Q1 : x * spp + ch + 1 <= x0 * spp) by nia. assert (Q0 : 0 <= x * spp + ch) by nia. assert (Q2 : 0 <= x * spp * bps < 2 ^ 31) by nia. assert (Q3 : (x * spp + ch) * bps + bps <= 2 ^ 31) by nia. assert (Q4 : 0 <= (x * spp + ch) * bps) by nia. assert (Q5 : x0 * spp * bps <= w * spp * bps) by nia.
    rewrite (sz_small (x * spp * bps)) by lia. replace (x * spp * bps + ch * bps) with ((x * spp + ch) * bps) by ring.
    pose proof (one_adv convert f spp bps w h rt rl BPS ltac:(lia) b ((x * spp + ch) * bps) x 0 ch) as O. intros c S. specialize (O Q4 ltac:(lia) ltac:(lia) (fun k K => G x ch k ltac:(lia) C K) ltac:(lia) ltac:(lia) C). destruct (O c S) as (c' & E' & S' & _). exists c'. auto. }
  destruct (P c0) as (c1 & E1 & S1 & _); [split; auto|]. apply (for_ub _ _ _ (Z.to_nat x0) c1); [lia|exact E1|]. rewrite Z2Nat.id by lia. unfold g. cbv zeta. rewrite X0. apply (for_ub _ _ _ 0 c1); [lia|reflexivity|].
  unfold sample. change (as_int (sz (sz (2 ^ 31) + Z.of_nat 0 * bps))) with (- 2 ^ 31). destruct (Z.to_nat bps) eqn:B; [lia|]. reflexivity.
Qed.
Print Assumptions C123_long_row_refuted.

(** The memory callbacks *)
(* the reference: a file opened for reading, with lseek and read; offsets are two's complement *)
Inductive call := Read (n : Z) | Seek (offset : Z) (w : whence).
Inductive answer := Bytes (l : list Z) (count : Z) | Position (p : option Z).
Definition file_call (data : list Z) (pos : Z) (c : call) : answer * Z :=
  match c with
  | Read n => let l := firstn (Z.to_nat n) (skipn (Z.to_nat pos) data) in (Bytes l (if n <? 0 then n else Z.of_nat (List.length l)), pos + Z.of_nat (List.length l))
  | Seek o w =>
      let target := match w with Seek_set => Some (signed64 o) | Seek_cur => Some (pos + signed64 o) | Seek_end => Some (Z.of_nat (List.length data) + signed64 o) | Other => None end in
      match target with
      | Some t => if ((0 <=? t) && (t <=? Z.of_nat (List.length data)))%bool then (Position (Some t), t) else (Position None, pos)
      | None => (Position None, pos)
      end
  end.
Fixpoint file_run (data : list Z) (pos : Z) (l : list call) : list answer := match l with [] => [] | c :: r => fst (file_call data pos c) :: file_run data (snd (file_call data pos c)) r end.
(* the callbacks; toff_t -1 is the error *)
Definition mem_call (s : mem) (c : call) : outcome (answer * mem) :=
  match c with
  | Read n => r <- mem_read s n ;; let '(l, k, s') := r in Ok (Bytes l k, s')
  | Seek o w => let (p, s') := mem_seek s o w in Ok (Position (if p =? 2 ^ 64 - 1 then None else Some p), s')
  end.
Fixpoint mem_run (s : mem) (l : list call) : outcome (list answer) := match l with [] => Ok [] | c :: r => x <- mem_call s c ;; y <- mem_run (snd x) r ;; Ok (fst x :: y) end.
(* arguments within their types *)
Definition typed (c : call) : Prop := match c with Read n => - 2 ^ 63 <= n < 2 ^ 63 | Seek o _ => 0 <= o < 2 ^ 64 end.
Lemma bytes_list k data i : 0 <= i -> i + Z.of_nat k <= Z.of_nat (List.length data) -> bytes_at k (of_list data) i = Ok (firstn k (skipn (Z.to_nat i) data)).
Proof.
  revert i. induction k as [|k IH]; intros i I L; auto. cbn [bytes_at]. rewrite rd_ok by (cbn; lia). cbn [obind]. rewrite IH by lia. cbn [obind]. cbn [of_list aget]. replace (Z.to_nat (i + 1)) with (S (Z.to_nat i)) by lia.
  assert (X : (Z.to_nat i < List.length data)%nat) by lia. clear -X. revert data X. induction (Z.to_nat i) as [|n IHn]; intros data X; destruct data as [|d data]; cbn in *; try lia; auto. apply IHn. lia.
Qed.
Lemma signed64_cases z : 0 <= z < 2 ^ 64 -> signed64 z = z /\ z < 2 ^ 63 \/ signed64 z = z - 2 ^ 64 /\ 2 ^ 63 <= z.
Proof. intros Z0. unfold signed64. rewrite Z.mod_small by auto. destruct (Z.leb_spec (2 ^ 63) z); lia. Qed.
Lemma call_ok data pos c : Z.of_nat (List.length data) < 2 ^ 63 -> 0 <= pos <= Z.of_nat (List.length data) -> typed c ->
  mem_call (Mem (of_list data) pos) c = Ok (fst (file_call data pos c), Mem (of_list data) (snd (file_call data pos c))) /\ 0 <= snd (file_call data pos c) <= Z.of_nat (List.length data).
Proof.
  intros L P T. set (N := Z.of_nat (List.length data)) in *. destruct c as [n|o w]; cbn [mem_call file_call typed fst snd] in *.
  - unfold mem_read. cbn [m_data m_pos]. change (asz (of_list data)) with N. destruct (signed64_cases pos ltac:(lia)) as [(-> & _)|(_ & ?)]; [|lia]. cbv zeta. rewrite firstn_length, skipn_length.
    set (t := if n <? N - pos then n else N - pos). assert (TE : t = Z.min n (N - pos)) by (unfold t; destruct (Z.ltb_spec n (N - pos)); lia). clearbody t.
    destruct (Z.ltb_spec 0 t).
    + rewrite bytes_list by (fold N; lia). cbn [obind]. split; [|lia]. f_equal. f_equal.
      * f_equal; [|destruct (Z.ltb_spec n 0); lia]. subst t. destruct (Z.le_gt_cases n (N - pos)); [f_equal; lia|]. rewrite !firstn_all2; auto; rewrite skipn_length; lia.
      * f_equal. rewrite Z.mod_small by lia. lia.
    + cbn [obind]. split; [|lia]. f_equal. f_equal.
      * destruct (Z.ltb_spec n 0); f_equal; try lia.
        -- replace (Z.to_nat n) with 0%nat by lia. reflexivity.
        -- assert (n = 0 \/ pos = N) as [->| ->] by lia; [reflexivity|]. unfold N. rewrite Nat2Z.id, skipn_all. destruct (Z.to_nat n); reflexivity.
      * f_equal. lia.
  - unfold mem_seek. cbn [m_data m_pos]. change (asz (of_list data)) with N.
    assert (K : forall np tg, 0 <= np < 2 ^ 64 -> (np = tg \/ np = tg + 2 ^ 64) -> - 2 ^ 63 <= tg < 2 ^ 64 - 1 ->
      (let (p, s') := (if N <? np then (2 ^ 64 - 1, Mem (of_list data) pos) else (np, Mem (of_list data) np)) in Ok (Position (if p =? 2 ^ 64 - 1 then None else Some p), s')) =
      Ok (fst (if (0 <=? tg) && (tg <=? N) then (Position (Some tg), tg) else (Position None, pos)), Mem (of_list data) (snd (if (0 <=? tg) && (tg <=? N) then (Position (Some tg), tg) else (Position None, pos)))) /\
      0 <= snd (if (0 <=? tg) && (tg <=? N) then (Position (Some tg), tg) else (Position None, pos)) <= N).
    { intros np tg NP NT TG. destruct (Z.ltb_spec N np).
      - rewrite Z.eqb_refl. replace ((0 <=? tg) && (tg <=? N)) with false by (symmetry; apply andb_false_iff; rewrite !Z.leb_gt; lia). split; auto.
      - replace (np =? 2 ^ 64 - 1) with false by (symmetry; apply Z.eqb_neq; lia). assert (tg = np) by lia. subst tg. replace ((0 <=? np) && (np <=? N)) with true by (symmetry; apply andb_true_iff; rewrite !Z.leb_le; lia). split; auto. cbn. lia. }
    destruct (signed64_cases o T) as [(E & B)|(E & B)]; rewrite E; destruct w.
    + apply K; lia.
    + rewrite Z.mod_small by lia. apply K; lia.
    + rewrite Z.mod_small by lia. apply K; lia.
    + split; auto.
    + apply K; lia.
    + destruct (Z.lt_ge_cases (pos + o) (2 ^ 64)); [rewrite Z.mod_small by lia; apply K; lia|]. replace ((pos + o) mod 2 ^ 64) with (pos + o - 2 ^ 64) by (apply Z.mod_unique with 1; lia). apply K; lia.
    + destruct (Z.lt_ge_cases (N + o) (2 ^ 64)); [rewrite Z.mod_small by lia; apply K; lia|]. replace ((N + o) mod 2 ^ 64) with (N + o - 2 ^ 64) by (apply Z.mod_unique with 1; lia). apply K; lia.
    + split; auto.
Qed.
(* whatever calls libtiff makes, and in whatever order, the callbacks answer like a file with these contents, and read no byte outside the buffer *)
Theorem C123_memory : forall data calls, Z.of_nat (List.length data) < 2 ^ 63 -> Forall typed calls -> mem_run (Mem (of_list data) 0) calls = Ok (file_run data 0 calls).
Proof.
  intros data calls L. assert (G : forall pos, 0 <= pos <= Z.of_nat (List.length data) -> Forall typed calls -> mem_run (Mem (of_list data) pos) calls = Ok (file_run data pos calls)); [|apply G; lia].
  induction calls as [|c r IH]; intros pos P T; auto. inversion T; subst. cbn [mem_run file_run]. destruct (call_ok data pos c L P) as (E & P'); auto. rewrite E. cbn [obind fst snd]. rewrite IH by auto. reflexivity.
Qed.
Print Assumptions C123_memory.

(** Values *)
Open Scope R_scope.
(* integer levels of 8 and 16 bits: what a file's sample reads as is written back as the same sample, exactly, in binary32 *)
Theorem C123_round_trip : forall M q, (M = 255 \/ M = 65535)%Z -> (0 <= q <= M)%Z -> write_sample M (unit_value M q) = Ok q.
Proof.
  intros M q HM Q. unfold write_sample. rewrite scale_back_exact by auto. rewrite float_le24 by lia. unfold clampR. destruct (Rlt_dec (IZR q) 0) as [L|_]; [apply (lt_IZR q 0) in L; lia|]. destruct (Rlt_dec (IZR M) (IZR q)) as [L|_]; [apply lt_IZR in L; lia|].
  unfold cast_int. rewrite Ztrunc_IZR. replace ((0 <=? q) && (q <=? M))%bool%Z with true by lia. reflexivity.
Qed.
(* any value is written as the level below it (the step it lies in), the order of values is kept, and values outside [0, 1] saturate *)
Theorem C123_written_level : forall M v, (M = 255 \/ M = 65535)%Z -> exists q, write_sample M v = Ok q /\ (0 <= q <= M)%Z /\ (0 <= v <= 1 -> IZR q <= fl (v * IZR M) < IZR q + 1) /\ (1 <= v -> q = M) /\ (v <= 0 -> q = 0%Z).
Proof.
  intros M v HM. assert (MF : fl (IZR M) = IZR M) by (apply float_le24; lia). assert (MP : 0 < IZR M) by (apply (IZR_lt 0); lia). unfold write_sample. rewrite MF. set (x := fl (v * IZR M)).
  assert (CB : 0 <= clampR x 0 (IZR M) <= IZR M). { unfold clampR. destruct (Rlt_dec x 0); [lra|]. destruct (Rlt_dec (IZR M) x); lra. }
  exists (Ztrunc (clampR x 0 (IZR M))). set (y := clampR x 0 (IZR M)) in *. pose proof (Ztrunc_floor y ltac:(lra)) as TF. pose proof (Zfloor_lb y) as LB. pose proof (Zfloor_ub y) as UB0.
  assert (R0 : (0 <= Ztrunc y <= M)%Z). { rewrite TF. split; [apply (Zfloor_lub 0); lra|]. apply le_IZR. lra. }
  split; [unfold cast_int; replace ((0 <=? Ztrunc y) && (Ztrunc y <=? M))%bool%Z with true by lia; reflexivity|]. split; auto. split; [|split].
  - intros V. assert (X : 0 <= x <= IZR M). { split; [rewrite <- fl_0; apply fl_mono; nra|]. unfold x. rewrite <- MF at 2. apply fl_mono. nra. }
    assert (y = x) by (unfold y, clampR; destruct (Rlt_dec x 0); [lra|]; destruct (Rlt_dec (IZR M) x); lra). rewrite TF. rewrite H in *. lra.
  - intros V. assert (IZR M <= x) by (unfold x; rewrite <- MF at 1; apply fl_mono; nra). assert (y = IZR M) as -> by (unfold y, clampR; destruct (Rlt_dec x 0); [lra|]; destruct (Rlt_dec (IZR M) x); lra). apply Ztrunc_IZR.
  - intros V. assert (x <= 0) by (apply Rle_trans with (fl 0); [apply fl_mono; nra|rewrite fl_0; lra]). assert (y = 0) as -> by (unfold y, clampR; destruct (Rlt_dec x 0); [lra|]; destruct (Rlt_dec (IZR M) x); lra). apply (Ztrunc_IZR 0).
Qed.
(* ... which is not the nearest level: 511/512 lies closer to 255/255 than to 254/255 and is written as 254 *)
Theorem C123_nearest_refuted : write_sample 255 (511 / 512) = Ok 254%Z /\ Rabs (511 / 512 - 255 / 255) < Rabs (511 / 512 - 254 / 255).
Proof.
  split; [|rewrite Rabs_left by lra; rewrite Rabs_pos_eq by lra; lra]. unfold write_sample. rewrite float_le24 by lia. rewrite fl_id by (apply (float_frac 130305 9); [lia|lia|cbn; lra]).
  unfold clampR. destruct (Rlt_dec (511 / 512 * 255) 0); [lra|]. destruct (Rlt_dec 255 (511 / 512 * 255)); [lra|]. unfold cast_int. rewrite (trunc_pos _ 254) by (try lia; lra). reflexivity.
Qed.
Print Assumptions C123_round_trip.
Print Assumptions C123_written_level.
Print Assumptions C123_nearest_refuted.

(* what the samples of a pixel mean: the colours come first, extra samples after them. None: not an RGB or gray image *)
Fixpoint alpha_position (e : list extra) (i : Z) : option Z := match e with [] => None | Unspecified :: r => alpha_position r (i + 1)%Z | _ => Some i end.
Definition meaning (p : photometric) (e : list extra) (n : Z) (v : Z -> R) : option (R * R * R * option R) :=
  let colours := (n - Z.of_nat (List.length e))%Z in let a := option_map v (alpha_position e colours) in
  match p with
  | MinIsBlack => if (colours =? 1)%Z then Some (v 0%Z, v 0%Z, v 0%Z, a) else None
  | MinIsWhite => if (colours =? 1)%Z then let g := fl (1 - v 0%Z) in Some (g, g, g, a) else None
  | Rgb => if (colours =? 3)%Z then Some (v 0%Z, v 1%Z, v 2%Z, a) else None
  | _ => None
  end.
(* files with at most one extra sample: a meaning, where there is one, is what the reader returns (an unspecified extra sample is refused) *)
Theorem C123_colours_partial : forall p e n v m, (List.length e <= 1)%nat -> meaning p e n v = Some m -> (e <> [Unspecified] -> read_rgb p e n v = Ok m) /\ (e = [Unspecified] -> read_rgb p e n v = Throws).
Proof.
  intros p e n v m L. unfold meaning, read_rgb. destruct e as [|a [|? ?]]; cbn in L; try lia.
  - cbn [List.length alpha_position option_map has_alpha]. replace (n - Z.of_nat 0)%Z with n by lia. destruct p; try discriminate.
    + destruct (Z.eqb_spec n 1) as [->|]; [|discriminate]. intros H. injection H as <-. split; [reflexivity|discriminate].
    + destruct (Z.eqb_spec n 1) as [->|]; [|discriminate]. intros H. injection H as <-. split; [reflexivity|discriminate].
    + destruct (Z.eqb_spec n 3) as [->|]; [|discriminate]. intros H. injection H as <-. split; [reflexivity|discriminate].
  - destruct a; cbn [List.length alpha_position option_map has_alpha]; change (Z.of_nat 1) with 1%Z.
    1,2: destruct p; try discriminate; [destruct (Z.eqb_spec (n - 1) 1) as [E|]; [|discriminate]; intros H; injection H as <-; assert (n = 2)%Z as -> by lia; (split; [reflexivity|discriminate])|
      destruct (Z.eqb_spec (n - 1) 1) as [E|]; [|discriminate]; intros H; injection H as <-; assert (n = 2)%Z as -> by lia; (split; [reflexivity|discriminate])|
      destruct (Z.eqb_spec (n - 1) 3) as [E|]; [|discriminate]; intros H; injection H as <-; assert (n = 4)%Z as -> by lia; (split; [reflexivity|discriminate])].
    assert (n = 2 \/ n = 4 -> read_rgb p [Unspecified] n v = Throws)%Z as K by (intros [->| ->]; reflexivity). intros H. split; [congruence|]. intros _. apply K.
    destruct p; try discriminate; try (destruct (Z.eqb_spec (n - 1) 1) as [E|]; [lia|discriminate]); destruct (Z.eqb_spec (n - 1) 3) as [E|]; [lia|discriminate].
Qed.
(* gray, alpha and two more samples: the reader shows alpha as green and reports the last sample as alpha *)
Theorem C123_extra_samples_refuted : forall v, let e := [Unassoc_alpha; Unspecified; Unspecified] in
  meaning MinIsBlack e 4 v = Some (v 0%Z, v 0%Z, v 0%Z, Some (v 1%Z)) /\ read_rgb MinIsBlack e 4 v = Ok (v 0%Z, v 1%Z, v 2%Z, Some (v 3%Z)).
Proof. intros v e. split; reflexivity. Qed.
(* luminance and chroma, or CIE L*a*b*, are returned as if they were red, green and blue *)
Theorem C123_photometric_refuted : forall p v, p = YCbCr \/ p = Lab -> meaning p [] 3 v = None /\ read_rgb p [] 3 v = Ok (v 0%Z, v 1%Z, v 2%Z, None).
Proof. intros p v [->| ->]; split; reflexivity. Qed.
Print Assumptions C123_colours_partial.
Print Assumptions C123_extra_samples_refuted.
Print Assumptions C123_photometric_refuted.
(* a 3 x 2 image in one tile of 4 x 2, two samples of one byte *)
Definition case_file : stored := (fun x y ch _ => 10 * y + 2 * x + ch)%Z.
Definition case_tile : arr := Arr 16 (fun i => let p := (i / 2)%Z in case_file (p mod 4) (p / 4) (i mod 2) 0)%Z.
Example C123_case : delivers case_file 2 1 3 2 4 2 (fun _ _ _ => Some case_tile) (fun _ _ => None) (Tiled true) /\ (buffer_size 2 1 3 4 2 (Tiled true) <= 2 ^ 31)%Z /\
  meaning MinIsBlack [Unassoc_alpha] 2 (fun ch => IZR (case_file 1%Z 1%Z ch 0%Z)) = Some (12, 12, 12, Some 13).
Proof.
  split; [|split; [cbn; lia|reflexivity]]. intros tx ty X Y (i & ->) (j & ->). exists case_tile. split; auto. split; auto. intros row col ch k RW CL CH K _ _. assert (i = 0)%Z as -> by lia. assert (j = 0)%Z as -> by lia. cbn [case_tile aget].
  replace (((row * 4 + col) * 2 + ch) * 1 + k)%Z with (ch + (row * 4 + col) * 2)%Z by lia. rewrite Z.div_add, Z.mod_add by lia. rewrite (Z.div_small ch), (Z.mod_small ch) by lia. replace (0 + (row * 4 + col))%Z with (col + row * 4)%Z by lia. rewrite Z.div_add, Z.mod_add by lia. rewrite (Z.div_small col), (Z.mod_small col) by lia. unfold case_file. lia.
Qed.
