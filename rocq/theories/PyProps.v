(* C130, C131: NumPy arrays in and out. *)
From Verif Require Import Common PyModel.
Local Open Scope Z_scope.
Local Open Scope list_scope.

(** specification *)
Section Spec.
Context {V : Type}.
Notation array := (@array V).
Implicit Types a : array.
(* an index NumPy accepts *)
Definition in_shape (i shape : list Z) : Prop := Forall2 (fun k d => 0 <= k < d) i shape.
(* an array NumPy can make: every index has its element; strides may be anything *)
Definition sound (size : Z) (a : array) : Prop :=
  0 < size /\ (a_native a = true -> a_size a = size) /\ List.length (a_strides a) = List.length (a_shape a) /\ Forall (fun d => 0 <= d) (a_shape a) /\
  forall i, in_shape i (a_shape a) -> item a i <> None.
(* the value of channel c of the pixel in column x of row y *)
Definition pixel (channels : Z) (m : @image V) (x y c : Z) : option V := nth_error (i_data m) (Z.to_nat ((y * i_width m + x) * channels + c)).
(* an image whose sizes agree *)
Definition image_ok (channels : Z) (m : @image V) : Prop :=
  0 <= i_width m < 2 ^ 31 /\ 0 <= i_height m < 2 ^ 31 /\ i_width m * i_height m < 2 ^ 31 /\ Z.of_nat (List.length (i_data m)) = i_width m * i_height m * channels.
(* the index of that value in the array of an image *)
Definition image_index (channels x y c : Z) : list Z := if channels =? 1 then [y; x] else [y; x; c].

Ltac ins := repeat first [apply Forall2_cons; [cbv beta; lia|] | apply Forall_cons; [cbv beta; lia|] ]; first [apply Forall2_nil | apply Forall_nil].
(** layout *)
Fixpoint ravel (shape i : list Z) : Z := match shape, i with d :: ds, k :: ks => k * prod ds + ravel ds ks | _, _ => 0 end.
Lemma prod_nonneg s : Forall (fun d => 0 <= d) s -> 0 <= prod s.
Proof. induction 1; cbn; nia. Qed.
Lemma ravel_range s i : in_shape i s -> 0 <= ravel s i < prod s.
Proof. induction 1 as [|k d is ds K _ IH]; cbn; [lia|nia]. Qed.
Lemma unravel_ravel s i : in_shape i s -> unravel s (ravel s i) = i.
Proof.
  induction 1 as [|k d is ds K IN IH]; cbn; auto. pose proof (ravel_range _ _ IN). f_equal; [rewrite Z.div_add_l by lia; rewrite Z.div_small; lia|]. rewrite Z.add_comm, Z_mod_plus_full, Z.mod_small by lia. exact IH.
Qed.
Lemma dense_ok size shape strides i sd : in_shape i shape -> List.length strides = List.length shape -> dense size shape strides = (sd, true) -> sd = size * prod shape /\ dot strides i = size * ravel shape i.
Proof.
  intros H. revert strides sd. induction H as [|k d is ds K IN IH]; intros [|s ss] sd L E; try discriminate; cbn in *; [inversion E; subst; lia|].
  destruct (dense size ds ss) as (sd', ok) eqn:D. assert (L' : List.length ss = List.length ds) by lia. destruct (Z.eqb_spec d 1) as [->|N].
  - inversion E; subst. destruct (IH ss sd L' D) as (A & B). rewrite A, B. assert (k = 0) as -> by lia. lia.
  - inversion E as [ [E1 E2] ]. subst sd. symmetry in E2. destruct ok; [|discriminate]. destruct (Z.eqb_spec s sd') as [->|]; [|discriminate]. destruct (IH ss sd' L' D) as (A & B). rewrite A, B. nia.
Qed.
Lemma row_major_length size s : List.length (row_major size s) = List.length s.
Proof. induction s; cbn; auto. Qed.
Lemma row_major_dot size s i : in_shape i s -> dot (row_major size s) i = size * ravel s i.
Proof. induction 1 as [|k d is ds K _ IH]; cbn; nia. Qed.
Lemma fresh_raw size shape (l : list (option V)) k : 0 < size -> 0 <= k -> raw size (fresh size shape l) k = match nth_error l (Z.to_nat k) with Some v => v | None => None end.
Proof.
  intros S K. unfold raw, fresh. cbn [a_mem a_ptr]. rewrite Z.add_0_l, (Z.mul_comm size k), Z_mod_mult, Z.div_mul by lia. cbn. destruct (Z.leb_spec 0 k); [auto|lia].
Qed.
Lemma fresh_item size shape (l : list (option V)) i : 0 < size -> in_shape i shape -> item (fresh size shape l) i = match nth_error l (Z.to_nat (ravel shape i)) with Some v => v | None => None end.
Proof.
  intros S I. pose proof (ravel_range _ _ I). rewrite <- (fresh_raw size shape l) by lia. unfold item, raw. cbn [a_strides fresh]. rewrite row_major_dot by auto. reflexivity.
Qed.
Lemma iota_nth n k : 0 <= k < n -> nth_error (iota n) (Z.to_nat k) = Some k.
Proof.
  intros K. unfold iota. rewrite (map_nth_error Z.of_nat (Z.to_nat k) (seq 0 (Z.to_nat n)) (d := Z.to_nat k)); [f_equal; lia|]. rewrite (nth_error_nth' _ O) by (rewrite seq_length; lia). rewrite seq_nth by lia. reflexivity.
Qed.
Lemma iota_length n : List.length (iota n) = Z.to_nat n.
Proof. unfold iota. rewrite map_length, seq_length. reflexivity. Qed.
Lemma iota_in n k : In k (iota n) <-> 0 <= k < n.
Proof.
  unfold iota. rewrite in_map_iff. split; [intros (j & <- & J); apply in_seq in J; lia|]. intros K. exists (Z.to_nat k). split; [lia|]. apply in_seq. lia.
Qed.
Lemma copied_raw size a i : 0 < size -> in_shape i (a_shape a) -> raw size (copied size a) (ravel (a_shape a) i) = item a i.
Proof.
  intros S I. pose proof (ravel_range _ _ I). unfold copied. rewrite fresh_raw by lia. rewrite (map_nth_error _ _ _ (iota_nth (prod (a_shape a)) (ravel (a_shape a) i) ltac:(lia))), unravel_ravel by auto. reflexivity.
Qed.
Lemma no_zero i shape : in_shape i shape -> existsb (Z.eqb 0) shape = false.
Proof. induction 1 as [|k d is ds K _ IH]; cbn; auto. destruct d; cbn; auto; lia. Qed.
Lemma c_style_raw size a i : sound size a -> in_shape i (a_shape a) -> raw size (c_style size a) (ravel (a_shape a) i) = item a i.
Proof.
  intros (S & N & L & _ & _) I. unfold c_style. destruct (a_native a && contiguous a) eqn:C; [|apply copied_raw; auto]. apply andb_prop in C. destruct C as (C1 & C2). unfold contiguous in C2. rewrite (no_zero _ _ I) in C2. cbn in C2. rewrite (N C1) in C2.
  destruct (dense size (a_shape a) (a_strides a)) as (sd, ok) eqn:D. cbn in C2. subst ok. destruct (dense_ok _ _ _ _ _ I L D) as (_ & E). unfold raw, item. rewrite E. reflexivity.
Qed.
Lemma c_style_shape size a : a_shape (c_style size a) = a_shape a.
Proof. unfold c_style. destruct (a_native a && contiguous a); reflexivity. Qed.
Lemma as_given_shape size a : a_shape (as_given size a) = a_shape a.
Proof. unfold as_given. destruct (a_native a); reflexivity. Qed.
Lemma reads_ok (l : list (option V)) : (forall x, In x l -> x <> None) -> exists r, reads l = Value r /\ l = map Some r.
Proof.
  induction l as [|x l IH]; intros H; [exists []; auto|]. destruct IH as (r & R & ->); [intros; apply H; right; auto|]. destruct x as [v|]; [|exfalso; apply (H None); [left|]; auto]. exists (v :: r). cbn. unfold reads in R. rewrite R. auto.
Qed.
Lemma reads_undefined (l : list (option V)) : In None l -> reads l = Undefined.
Proof.
  induction l as [|x l IH]; intros H; [destruct H|]. destruct H as [->|H]; [reflexivity|]. specialize (IH H). unfold reads in *. cbn. rewrite IH. destruct x; auto.
Qed.
Lemma reads_some (r : list V) : reads (map Some r) = Value r.
Proof. induction r as [|v r IH]; cbn; auto. unfold reads in IH. rewrite IH. reflexivity. Qed.

Lemma nth_error_same {A} (l m : list A) : (forall n, nth_error l n = nth_error m n) -> l = m.
Proof.
  revert m. induction l as [|x l IH]; intros [|y m] H; auto; try (specialize (H O); discriminate). pose proof (H O) as E. cbn in E. inversion E; subst. f_equal. apply IH. intros n. apply (H (S n)).
Qed.

(** C130 *)
(* the full claim for vectors: the components are a[0], a[1], ... *)
Definition right_vector (n : Z) (a : array) (o : outcome (list V)) : Prop := exists v, o = Value v /\ Z.of_nat (List.length v) = n /\ forall k, 0 <= k < n -> nth_error v (Z.to_nat k) = item a [k].
(* proved for contiguous arrays and for arrays of another type, which are copied *)
Theorem C130_vector_partial : forall n a, 0 <= n -> sound 8 a -> a_shape a = [n] -> a_native a = false \/ a_strides a = [8] -> right_vector n a (vector n a).
Proof.
  intros n a N S SH C. assert (R : forall k, 0 <= k < n -> raw 8 (as_given 8 a) k = item a [k]).
  { intros k K. assert (I : in_shape [k] (a_shape a)) by (rewrite SH; ins). replace k with (ravel (a_shape a) [k]) at 1 by (rewrite SH; cbn; lia). unfold as_given. destruct (a_native a) eqn:NA; [|apply copied_raw; auto; lia].
    destruct C as [C|C]; [discriminate|]. unfold raw, item. rewrite C, SH. cbn [ravel dot prod]. f_equal. lia. }
  unfold vector. rewrite as_given_shape, SH, Z.eqb_refl. destruct (reads_ok (map (raw 8 (as_given 8 a)) (iota n))) as (v & E & M).
  - intros x X. apply in_map_iff in X. destruct X as (k & <- & K). apply iota_in in K. rewrite R by auto. apply (proj2 (proj2 (proj2 (proj2 S)))). rewrite SH. ins.
  - exists v. rewrite E. split; auto. assert (L : List.length v = Z.to_nat n). { apply (f_equal (@List.length _)) in M. rewrite !map_length, iota_length in M. lia. } split; [lia|]. intros k K. rewrite <- (R k K).
    pose proof (f_equal (fun l => nth_error l (Z.to_nat k)) M) as E2. cbv beta in E2. rewrite (map_nth_error _ _ _ (iota_nth n k K)) in E2. rewrite nth_error_map in E2. destruct (nth_error v (Z.to_nat k)); cbn in E2; congruence.
Qed.
(* arrays of another shape are refused *)
Theorem C130_vector_shape : forall n a, a_shape a <> [n] -> vector n a = Throws.
Proof.
  intros n a H. unfold vector. rewrite as_given_shape. destruct (a_shape a) as [|d [|e r] ]; auto. destruct (Z.eqb_spec d n); [subst; contradiction|auto].
Qed.
(* REFUTED: a block of n doubles seen backwards (a[::-1]): the memory behind the block is read *)
Definition block (n : Z) (f : Z -> V) : Z -> option V := fun p => if (p mod 8 =? 0) && (0 <=? p / 8) && (p / 8 <? n) then Some (f (p / 8)) else None.
Lemma block_at n f k : 0 <= k < n -> block n f (8 * k) = Some (f k).
Proof. intros K. unfold block. rewrite (Z.mul_comm 8 k), Z_mod_mult, Z.div_mul by lia. cbn. destruct (Z.leb_spec 0 k); [|lia]. destruct (Z.ltb_spec k n); [auto|lia]. Qed.
Theorem C130_reversed_refuted : forall n (f : Z -> V), 2 <= n -> let a := Array (block n f) (8 * (n - 1)) 8 [n] [-8] true in
  sound 8 a /\ (forall k, 0 <= k < n -> item a [k] = Some (f (n - 1 - k))) /\ vector n a = Undefined.
Proof.
  intros n f N a. assert (IT : forall k, 0 <= k < n -> item a [k] = Some (f (n - 1 - k))). { intros k K. unfold item, a. cbn [a_mem a_ptr a_strides dot]. rewrite <- (block_at n f (n - 1 - k)) by lia. f_equal. lia. }
  split; [|split; auto].
  - split; [lia|split; [auto|split; [auto|split; [ins|] ] ] ]. intros i I. inversion I as [|k d is ds K IS]; subst. inversion IS; subst. rewrite IT by lia. discriminate.
  - unfold vector, as_given. cbn [a_native a_shape a]. rewrite Z.eqb_refl. apply reads_undefined. apply in_map_iff. exists 1. split; [|apply iota_in; lia]. unfold raw, a. cbn [a_mem a_ptr]. unfold block. replace (8 * (n - 1) + 8 * 1) with (n * 8) by lia. rewrite Z_mod_mult, Z.div_mul by lia. cbn. destruct (Z.leb_spec 0 n); [|lia]. destruct (Z.ltb_spec n n); [lia|auto].
Qed.
(* REFUTED: every other element of a block (a[::2], a column of a matrix): other elements of the block are taken *)
Theorem C130_strided_refuted : forall n (f : Z -> V), 2 <= n -> f 1 <> f 2 -> let a := Array (block (2 * n) f) 0 8 [n] [16] true in
  sound 8 a /\ exists v, vector n a = Value v /\ nth_error v 1 = Some (f 1) /\ item a [1] = Some (f 2) /\ ~ right_vector n a (vector n a).
Proof.
  intros n f N NE a. assert (IT : forall k, 0 <= k < n -> item a [k] = Some (f (2 * k))). { intros k K. unfold item, a. cbn [a_mem a_ptr a_strides dot]. rewrite <- (block_at (2 * n) f (2 * k)) by lia. f_equal. lia. }
  assert (RW : forall k, 0 <= k < n -> raw 8 a k = Some (f k)). { intros k K. unfold raw, a. cbn [a_mem a_ptr]. rewrite Z.add_0_l. apply block_at. lia. }
  assert (VE : vector n a = Value (map f (iota n))). { unfold vector, as_given. cbn [a_native a_shape a]. rewrite Z.eqb_refl. rewrite <- (reads_some (map f (iota n))), map_map. f_equal. apply map_ext_in. intros k K. apply iota_in in K. apply RW. auto. }
  split; [split; [lia|split; [auto|split; [auto|split; [ins|] ] ] ]; intros i I; inversion I as [|k d is ds K IS]; subst; inversion IS; subst; rewrite IT by lia; discriminate|].
  exists (map f (iota n)). assert (N1 : nth_error (map f (iota n)) 1 = Some (f 1)) by (apply map_nth_error; apply (iota_nth n 1); lia). split; [auto|]. split; [auto|]. split; [rewrite IT by lia; reflexivity|].
  intros (v & E & _ & R). rewrite VE in E. inversion E; subst v. specialize (R 1 ltac:(lia)). change (Z.to_nat 1) with 1%nat in R. rewrite N1, IT in R by lia. inversion R. contradiction.
Qed.
Theorem C130_vector_to_numpy : forall (v : list V) k, 0 <= k < Z.of_nat (List.length v) -> a_shape (vector_to_numpy v) = [Z.of_nat (List.length v)] /\ item (vector_to_numpy v) [k] = nth_error v (Z.to_nat k).
Proof.
  intros v k K. split; auto. unfold vector_to_numpy. rewrite fresh_item; [|lia|ins]. cbn. replace (k * 1 + 0) with k by lia. rewrite nth_error_map. destruct (nth_error v (Z.to_nat k)); reflexivity.
Qed.
(* matrices: whatever the strides and the type, row r and column c of the array are row r and column c of the matrix; and back *)
Theorem C130_matrix : forall a, sound 8 a -> a_shape a = [3; 3] -> exists m : Z -> Z -> option V, matrix a = Value m /\ (forall r c, 0 <= r < 3 -> 0 <= c < 3 -> m c r = item a [r; c] /\ item (matrix_to_numpy m) [r; c] = m c r).
Proof.
  intros a S SH. assert (R : forall r c, 0 <= r < 3 -> 0 <= c < 3 -> raw 8 (c_style 8 a) (r * 3 + c) = item a [r; c]).
  { intros r c RR CC. replace (r * 3 + c) with (ravel (a_shape a) [r; c]) by (rewrite SH; cbn; lia). apply c_style_raw; auto. rewrite SH. ins. }
  unfold matrix. rewrite c_style_shape, SH. cbn [Z.eqb Pos.eqb andb]. destruct (reads_ok (map (raw 8 (c_style 8 a)) (iota 9))) as (v & -> & _).
  - intros x X. apply in_map_iff in X. destruct X as (k & <- & K). apply iota_in in K. pose proof (Z.div_mod k 3 ltac:(lia)). pose proof (Z.mod_pos_bound k 3 ltac:(lia)). replace k with (k / 3 * 3 + k mod 3) by lia. rewrite R by lia. apply S. rewrite SH. ins.
  - eexists. split; [reflexivity|]. intros r c RR CC. split; [apply R; auto|]. unfold matrix_to_numpy. rewrite fresh_item; [|lia|ins]. cbn [ravel prod].
    assert (r = 0 \/ r = 1 \/ r = 2) as RR' by lia. assert (c = 0 \/ c = 1 \/ c = 2) as CC' by lia. destruct RR' as [->|[->| ->] ]; destruct CC' as [->|[->| ->] ]; reflexivity.
Qed.
Theorem C130_matrix_shape : forall a, a_shape a <> [3; 3] -> matrix a = Throws.
Proof.
  intros a H. unfold matrix. rewrite c_style_shape. destruct (a_shape a) as [|r [|c [|e q] ] ]; auto. destruct (Z.eqb_spec r 3), (Z.eqb_spec c 3); cbn; auto. subst. contradiction.
Qed.
(* images *)
Lemma flat_nth (f : Z -> Z -> option V) n ch i c : 0 <= i < n -> 0 <= c < ch -> nth_error (flat_map (fun i => map (f i) (iota ch)) (iota n)) (Z.to_nat (i * ch + c)) = Some (f i c).
Proof.
  intros I C. unfold iota at 2. assert (G : forall m s, (Z.to_nat i < s + m)%nat -> (s <= Z.to_nat i)%nat -> nth_error (flat_map (fun i => map (f i) (iota ch)) (map Z.of_nat (seq s m))) (Z.to_nat ((i - Z.of_nat s) * ch + c)) = Some (f i c)).
  { induction m as [|m IH]; intros s A B; [lia|]. cbn [seq map flat_map]. destruct (Nat.eq_dec s (Z.to_nat i)) as [->|NE].
    - replace (i - Z.of_nat (Z.to_nat i)) with 0 by lia. rewrite Z.mul_0_l, Z.add_0_l, nth_error_app1 by (rewrite map_length, iota_length; lia). rewrite (map_nth_error _ _ _ (iota_nth ch c C)). f_equal. f_equal. lia.
    - rewrite nth_error_app2 by (rewrite map_length, iota_length; nia). rewrite map_length, iota_length. rewrite <- (IH (S s)) by lia. f_equal. nia. }
  rewrite <- (G (Z.to_nat n) O) by lia. f_equal. f_equal. lia.
Qed.
Lemma flat_length (f : Z -> Z -> option V) n ch : 0 <= n -> 0 <= ch -> Z.of_nat (List.length (flat_map (fun i => map (f i) (iota ch)) (iota n))) = n * ch.
Proof.
  intros N C. unfold iota at 2. assert (G : forall m s, List.length (flat_map (fun i => map (f i) (iota ch)) (map Z.of_nat (seq s m))) = (m * Z.to_nat ch)%nat). { induction m as [|m IH]; intros s; cbn; auto. rewrite app_length, map_length, iota_length, IH. lia. }
  rewrite G. nia.
Qed.
Lemma int32_id x : 0 <= x < 2 ^ 31 -> int32 x = x.
Proof. intros X. unfold int32. rewrite Z.mod_small; lia. Qed.
(* the shape an image of that size has as an array, or the same with a channel axis of length 1 *)
Definition shape_for (channels h w : Z) (shape : list Z) : Prop := shape = [h; w; channels] \/ (channels = 1 /\ shape = [h; w]).
Definition index_in (shape : list Z) (y x c : Z) : list Z := match shape with [_; _] => [y; x] | _ => [y; x; c] end.
Lemma flat_in (f : Z -> Z -> option V) n ch x : In x (flat_map (fun i => map (f i) (iota ch)) (iota n)) -> exists i c, 0 <= i < n /\ 0 <= c < ch /\ x = f i c.
Proof. intros H. apply in_flat_map in H. destruct H as (i & I & H). apply in_map_iff in H. destruct H as (c & <- & C). apply iota_in in I. apply iota_in in C. eauto 6. Qed.
Lemma from_numpy_ok size channels a h w : 0 < channels -> sound size a -> shape_for channels h w (a_shape a) -> 0 <= h < 2 ^ 31 -> 0 <= w < 2 ^ 31 -> w * h < 2 ^ 31 ->
  exists m, from_numpy size channels a = Value m /\ i_width m = w /\ i_height m = h /\ image_ok channels m /\ forall x y c, 0 <= x < w -> 0 <= y < h -> 0 <= c < channels -> pixel channels m x y c = item a (index_in (a_shape a) y x c).
Proof.
  intros CH S SH H W P. assert (D : dims channels (a_shape a) = Some (h, w)).
  { unfold dims. destruct SH as [E|(-> & E)]; rewrite E; [|cbn; rewrite !int32_id by auto; auto]. rewrite Z.eqb_refl, !int32_id by auto. destruct (Z.eqb_spec channels 1) as [->|]; auto. }
  assert (R : forall x y c, 0 <= x < w -> 0 <= y < h -> 0 <= c < channels -> raw size (c_style size a) ((y * w + x) * channels + c) = item a (index_in (a_shape a) y x c) /\ item a (index_in (a_shape a) y x c) <> None).
  { intros x y c X Y C. assert (I : in_shape (index_in (a_shape a) y x c) (a_shape a)) by (destruct SH as [E|(-> & E)]; rewrite E; ins). split; [|apply S; auto]. rewrite <- (c_style_raw size a) by auto. f_equal. destruct SH as [E|(-> & E)]; rewrite E; cbn; lia. }
  unfold from_numpy. rewrite c_style_shape, D. unfold pixels. assert (0 <= w * h) by nia. destruct (Z.ltb_spec (w * h) (- 2 ^ 31)); [lia|]. destruct (Z.leb_spec (2 ^ 31) (w * h)); [lia|]. destruct (Z.ltb_spec (w * h) 0); [lia|]. cbn [orb].
  set (f := fun i c => raw size (c_style size a) (i * channels + c)). change (flat_map _ (iota (w * h))) with (flat_map (fun i => map (f i) (iota channels)) (iota (w * h))).
  destruct (reads_ok (flat_map (fun i => map (f i) (iota channels)) (iota (w * h)))) as (l & E & M).
  - intros v Hv. destruct (flat_in _ _ _ _ Hv) as (i & c & I & C & ->). assert (0 < w) by nia. pose proof (Z.div_mod i w ltac:(lia)). pose proof (Z.mod_pos_bound i w ltac:(lia)). assert (0 <= i / w < h) by (split; [apply Z.div_pos; lia|apply Z.div_lt_upper_bound; lia]). unfold f. replace (i * channels + c) with ((i / w * w + i mod w) * channels + c) by lia. destruct (R (i mod w) (i / w) c ltac:(lia) ltac:(lia) ltac:(lia)) as (-> & Q). exact Q.
  - rewrite E. exists (Img w h l). split; auto. split; auto. split; auto. assert (LEN : Z.of_nat (List.length l) = w * h * channels). { rewrite <- (flat_length f (w * h) channels) by lia. rewrite M, map_length. reflexivity. } split; [repeat split; cbn; try tauto; lia|].
    intros x y c X Y C. unfold pixel. cbn [i_data i_width]. assert (IX : 0 <= y * w + x < w * h) by nia. pose proof (flat_nth f (w * h) channels (y * w + x) c IX C) as N. rewrite M, nth_error_map in N. destruct (R x y c X Y C) as (EQ & _). unfold f in N. rewrite EQ in N. destruct (nth_error l _) as [v|]; cbn in N; congruence.
Qed.
Theorem C130_image : forall size channels a h w, 0 < channels -> sound size a -> shape_for channels h w (a_shape a) -> 0 <= h < 2 ^ 31 -> 0 <= w < 2 ^ 31 -> w * h < 2 ^ 31 ->
  exists m, from_numpy size channels a = Value m /\ i_width m = w /\ i_height m = h /\ image_ok channels m /\
            forall x y c, 0 <= x < w -> 0 <= y < h -> 0 <= c < channels -> pixel channels m x y c = item a (index_in (a_shape a) y x c).
Proof. exact from_numpy_ok. Qed.
Theorem C130_image_shape : forall size channels a, (forall h w, ~ shape_for channels h w (a_shape a)) -> from_numpy size channels a = Throws.
Proof.
  intros size channels a H. unfold from_numpy. rewrite c_style_shape. assert (dims channels (a_shape a) = None) as ->; auto. unfold dims. destruct (Z.eqb_spec channels 1) as [->|N].
  - destruct (a_shape a) as [|h [|w [|c [|e r] ] ] ]; auto; [exfalso; apply (H h w); right; auto|]. destruct (Z.eqb_spec c 1) as [->|]; auto. exfalso. apply (H h w). left. auto.
  - destruct (a_shape a) as [|h [|w [|c [|e r] ] ] ]; auto. destruct (Z.eqb_spec c channels) as [->|]; auto. exfalso. apply (H h w). left. auto.
Qed.
Lemma index_range w h ch x y c : 0 <= x < w -> 0 <= y < h -> 0 <= c < ch -> 0 <= (y * w + x) * ch + c < w * h * ch.
Proof. intros X Y C. assert (0 <= y * w + x < w * h) by nia. nia. Qed.
Lemma image_in channels (m : @image V) x y c : 0 < channels -> 0 <= x < i_width m -> 0 <= y < i_height m -> 0 <= c < channels -> in_shape (image_index channels x y c) (image_shape channels m) /\ ravel (image_shape channels m) (image_index channels x y c) = (y * i_width m + x) * channels + c.
Proof. intros CH X Y C. unfold image_index, image_shape. destruct (Z.eqb_spec channels 1) as [->|]; (split; [ins|cbn; lia]). Qed.
Theorem C130_to_numpy : forall size channels (m : @image V) x y c, 0 < size -> 0 < channels -> image_ok channels m -> 0 <= x < i_width m -> 0 <= y < i_height m -> 0 <= c < channels ->
  item (to_numpy size channels m) (image_index channels x y c) = pixel channels m x y c /\ pixel channels m x y c <> None.
Proof.
  intros size channels m x y c S CH (A & B & _ & L) X Y C. destruct (image_in channels m x y c CH X Y C) as (I & R). assert (K : 0 <= (y * i_width m + x) * channels + c < i_width m * i_height m * channels) by (apply index_range; auto).
  unfold pixel. split; [|apply nth_error_Some; lia]. unfold to_numpy. rewrite fresh_item by auto. rewrite R, firstn_all2 by lia. rewrite nth_error_map. destruct (nth_error (i_data m) _); reflexivity.
Qed.
(* np.asarray(img): element by element the pixels themselves, inside the image's memory, no two at the same place *)
Theorem C130_view : forall size channels base (m : @image V) x y c, 0 < size -> 0 < channels -> image_ok channels m -> 0 <= x < i_width m -> 0 <= y < i_height m -> 0 <= c < channels ->
  let v := view size channels base m in let address := fun x y c => a_ptr v + dot (a_strides v) (image_index channels x y c) in
  item v (image_index channels x y c) = pixel channels m x y c /\ base <= address x y c /\ address x y c + size <= base + size * Z.of_nat (List.length (i_data m)) /\
  (forall x' y' c', 0 <= x' < i_width m -> 0 <= y' < i_height m -> 0 <= c' < channels -> (x', y', c') <> (x, y, c) -> address x' y' c' + size <= address x y c \/ address x y c + size <= address x' y' c').
Proof.
  intros size channels base m x y c S CH (A & B & _ & L) X Y C v address. assert (AD : forall x y c, 0 <= c < channels -> address x y c = base + size * ((y * i_width m + x) * channels + c)).
  { intros x0 y0 c0 C0. unfold address, v, view, image_index. cbn [a_ptr a_strides]. destruct (Z.eqb_spec channels 1) as [->|]; cbn; [assert (c0 = 0) as -> by lia|]; ring. }
  assert (K : 0 <= (y * i_width m + x) * channels + c < i_width m * i_height m * channels) by (apply index_range; auto). split; [|split; [rewrite AD by auto; nia|split; [rewrite AD by auto; nia|]]].
  - unfold item. change (a_ptr v + dot (a_strides v) (image_index channels x y c)) with (address x y c). rewrite AD by auto. unfold v, view. cbn [a_mem]. replace (base + size * ((y * i_width m + x) * channels + c) - base) with (((y * i_width m + x) * channels + c) * size) by ring. rewrite Z_mod_mult, Z.div_mul by lia. cbn. destruct (Z.leb_spec 0 ((y * i_width m + x) * channels + c)); [reflexivity|lia].
  - intros x' y' c' X' Y' C' NE. rewrite !AD by auto. set (i := (y * i_width m + x) * channels + c). set (j := (y' * i_width m + x') * channels + c'). assert (NJ : i <> j).
    { intros EQ. apply NE. assert (Q : y * i_width m + x = y' * i_width m + x') by (unfold i, j in EQ; destruct (Z_lt_le_dec (y * i_width m + x) (y' * i_width m + x')); [nia|]; destruct (Z_lt_le_dec (y' * i_width m + x') (y * i_width m + x)); [nia|lia]). assert (c = c') by (unfold i, j in EQ; nia). assert (y = y') by (destruct (Z_lt_le_dec y y'); [nia|]; destruct (Z_lt_le_dec y' y); [nia|lia]). subst. assert (x = x') by lia. congruence. }
    assert (i + 1 <= j \/ j + 1 <= i) by lia. nia.
Qed.
(* writing an image into an array and reading it back gives the image *)
Theorem C130_roundtrip : forall size channels (m : @image V), 0 < size -> 0 < channels -> image_ok channels m -> from_numpy size channels (to_numpy size channels m) = Value m.
Proof.
  intros size channels m S CH OK. pose proof OK as (A & B & P & L). assert (SH : shape_for channels (i_height m) (i_width m) (a_shape (to_numpy size channels m))) by (cbn; unfold image_shape; destruct (Z.eqb_spec channels 1); [right|left]; auto).
  assert (SO : sound size (to_numpy size channels m)).
  { split; [auto|]. split; [auto|]. split; [apply row_major_length|]. split; [cbn; unfold image_shape; destruct (channels =? 1); ins|]. intros i I. cbn [a_shape to_numpy fresh] in I. unfold to_numpy. rewrite fresh_item by auto. pose proof (ravel_range _ _ I) as RR. rewrite nth_error_map, firstn_all2 by lia.
    assert (PR : prod (image_shape channels m) = i_width m * i_height m * channels) by (unfold image_shape; destruct (Z.eqb_spec channels 1) as [->|]; cbn; lia). destruct (nth_error (i_data m) (Z.to_nat (ravel (image_shape channels m) i))) eqn:E; [discriminate|]. apply nth_error_None in E. lia. }
  destruct (from_numpy_ok size channels _ _ _ CH SO SH B A P) as (m' & E & W & H & OK' & PX). rewrite E. f_equal. destruct m as [w h d], m' as [w' h' d']. cbn [i_width i_height i_data] in *. subst w' h'. f_equal. destruct OK' as (_ & _ & _ & L'). cbn [i_width i_height i_data] in L'.
  apply nth_error_same. intros n. destruct (Nat.lt_ge_cases n (List.length d)) as [LT|GE]; [|rewrite !(proj2 (nth_error_None _ _)) by lia; reflexivity].
  set (k := Z.of_nat n). set (i := k / channels). assert (K : 0 <= k < w * h * channels) by lia. pose proof (Z.div_mod k channels ltac:(lia)) as D1. pose proof (Z.mod_pos_bound k channels ltac:(lia)) as D2. assert (I : 0 <= i < w * h) by (unfold i; split; [apply Z.div_pos; lia|apply Z.div_lt_upper_bound; lia]). assert (W0 : 0 < w) by nia.
  pose proof (Z.div_mod i w ltac:(lia)) as D3. pose proof (Z.mod_pos_bound i w ltac:(lia)) as D4. assert (Y : 0 <= i / w < h) by (split; [apply Z.div_pos; lia|apply Z.div_lt_upper_bound; lia]). assert (Q : Z.to_nat ((i / w * w + i mod w) * channels + k mod channels) = n) by (fold i in D1; replace (i / w * w + i mod w) with i by lia; lia).
  specialize (PX (i mod w) (i / w) (k mod channels) ltac:(lia) Y ltac:(lia)). pose proof (proj1 (C130_to_numpy size channels (Img w h d) (i mod w) (i / w) (k mod channels) S CH OK ltac:(cbn; lia) Y ltac:(lia))) as T.
  assert (IE : index_in (image_shape channels (Img w h d)) (i / w) (i mod w) (k mod channels) = image_index channels (i mod w) (i / w) (k mod channels)) by (unfold image_shape, image_index; destruct (channels =? 1); reflexivity). change (a_shape (to_numpy size channels (Img w h d))) with (image_shape channels (Img w h d)) in PX. rewrite IE, T in PX. unfold pixel in PX. cbn [i_data i_width] in PX. rewrite Q in PX. exact PX.
Qed.
(* REFUTED for large arrays: the number of pixels is computed in int *)
Theorem C130_overflow_refuted : forall size channels a h w, 0 < channels -> shape_for channels h w (a_shape a) -> 0 <= h < 2 ^ 31 -> 0 <= w < 2 ^ 31 -> 2 ^ 31 <= w * h -> from_numpy size channels a = Undefined.
Proof.
  intros size channels a h w CH SH H W P. assert (D : dims channels (a_shape a) = Some (h, w)). { unfold dims. destruct SH as [E|(-> & E)]; rewrite E; [|cbn; rewrite !int32_id by auto; auto]. rewrite Z.eqb_refl, !int32_id by auto. destruct (Z.eqb_spec channels 1) as [->|]; auto. }
  unfold from_numpy. rewrite c_style_shape, D. unfold pixels. destruct (Z.leb_spec (2 ^ 31) (w * h)); [|lia]. rewrite orb_true_r. reflexivity.
Qed.
(* ... and a number of rows of 2^32 or more is cut down to its low bits without a word *)
Theorem C130_truncated_refuted : forall size channels a h w, 0 < channels -> sound size a -> shape_for channels (2 ^ 32 + h) w (a_shape a) -> 0 <= h < 2 ^ 31 -> 0 <= w < 2 ^ 31 -> w * h < 2 ^ 31 ->
  exists m, from_numpy size channels a = Value m /\ i_height m = h.
Proof.
  intros size channels a h w CH S SH H W P. assert (I32 : int32 (2 ^ 32 + h) = h) by (unfold int32; replace (2 ^ 32 + h + 2 ^ 31) with (h + 2 ^ 31 + 1 * 2 ^ 32) by lia; rewrite Z_mod_plus_full, Z.mod_small; lia).
  assert (D : dims channels (a_shape a) = Some (h, w)). { unfold dims. destruct SH as [E|(-> & E)]; rewrite E; [|cbn -[Z.pow Z.add]; rewrite I32, int32_id by auto; auto]. rewrite Z.eqb_refl, I32, int32_id by auto. destruct (Z.eqb_spec channels 1) as [->|]; auto. }
  unfold from_numpy. rewrite c_style_shape, D. unfold pixels. assert (0 <= w * h) by nia. destruct (Z.ltb_spec (w * h) (- 2 ^ 31)); [lia|]. destruct (Z.leb_spec (2 ^ 31) (w * h)); [lia|]. destruct (Z.ltb_spec (w * h) 0); [lia|]. cbn [orb].
  set (f := fun i c => raw size (c_style size a) (i * channels + c)). change (flat_map _ (iota (w * h))) with (flat_map (fun i => map (f i) (iota channels)) (iota (w * h))).
  destruct (reads_ok (flat_map (fun i => map (f i) (iota channels)) (iota (w * h)))) as (l & -> & _); [|eexists; split; reflexivity].
  intros v Hv. destruct (flat_in _ _ _ _ Hv) as (i & c & I & C & ->). assert (0 < w) by nia. pose proof (Z.div_mod i w ltac:(lia)). pose proof (Z.mod_pos_bound i w ltac:(lia)). assert (0 <= i / w < h) by (split; [apply Z.div_pos; lia|apply Z.div_lt_upper_bound; lia]).
  assert (IN : in_shape (index_in (a_shape a) (i / w) (i mod w) c) (a_shape a)) by (destruct SH as [E|(-> & E)]; rewrite E; ins). unfold f. replace (i * channels + c) with (ravel (a_shape a) (index_in (a_shape a) (i / w) (i mod w) c)) by (destruct SH as [E|(-> & E)]; rewrite E; cbn -[Z.pow Z.add Z.mul]; lia). rewrite c_style_raw by auto. apply S. exact IN.
Qed.
End Spec.
Ltac ins := repeat first [apply Forall2_cons; [cbv beta; lia|] | apply Forall_cons; [cbv beta; lia|] ]; first [apply Forall2_nil | apply Forall_nil].
(* a transposed 2 x 3 view of int32, an image of it, and a vector *)
Example C130_nonvacuous : let a := Array (block 6 (fun k => 10 + k)) 0 8 [3; 2] [8; 24] true in
  sound 8 a /\ from_numpy 8 1 a = Value (Img 2 3 [10; 13; 11; 14; 12; 15]) /\ vector 6 (Array (block 6 (fun k => k)) 0 8 [6] [8] true) = Value [0; 1; 2; 3; 4; 5] /\
  item (view 4 3 100 (Img 2 1 [1; 2; 3; 4; 5; 6])) [0; 1; 2] = Some 6.
Proof.
  cbv zeta. split; [|repeat split]. split; [lia|split; [auto|split; [auto|split; [ins|] ] ] ]. intros i I. inversion I as [|k d is ds K IS]; subst. inversion IS as [|k2 d2 is2 ds2 K2 IS2]; subst. inversion IS2; subst. unfold item. cbn [a_mem a_ptr a_strides dot]. replace (0 + (8 * k + (24 * k2 + 0))) with (8 * (k + 3 * k2)) by lia. rewrite block_at by lia. discriminate.
Qed.

(** C131 *)
(* what happens to one channel of a frame buffer, or the image of a bundle, from Python, in order *)
Definition history (full : Z) (s : heap * vec) (l : list operation) : heap * vec := fold_left (operate full) l s.
(* the state after enable_...(): the channel's block is live and blocks not yet given out are not *)
Definition started (full : Z) (s : heap * vec) : Prop := h_live (fst s) (v_block (snd s)) = true /\ (v_block (snd s) < h_next (fst s))%nat /\ v_len (snd s) = full /\ full <= v_capacity (snd s) /\ 0 < full.
(* operations that never give the memory away *)
Definition harmless (full : Z) (o : operation) : Prop := o = Enable true \/ o = Fill \/ o = Assign full.
Theorem C131_view_kept_partial : forall full s l, started full s -> Forall (harmless full) l -> let '(h, v) := history full s l in
  v_block v = v_block (snd s) /\ h_live h (v_block (snd s)) = true /\ v_len v = full.
Proof.
  intros full s l. revert s. induction l as [|o l IH]; intros (h, v) (L & B & N & C & F) HL; [cbn; auto|]. inversion HL as [|? ? HO HR]; subst. cbn [history fold_left]. assert (ST : exists v', operate (v_len v) (h, v) o = (h, v') /\ v_block v' = v_block v /\ started (v_len v) (h, v')).
  { cbn in *. destruct HO as [->|[->| ->] ]; cbn.
    - rewrite Z.eqb_refl. exists v. repeat split; auto.
    - exists v. repeat split; auto.
    - destruct (Z.leb_spec (v_len v) (v_capacity v)); [|lia]. eexists. repeat split; cbn; auto. }
  destruct ST as (v' & E & EB & ST). cbn [snd] in *. rewrite E. specialize (IH (h, v') ST HR). unfold history in IH. cbn [snd] in IH. destruct (fold_left (operate (v_len v)) l (h, v')) as (h2, v2). rewrite EB in IH. exact IH.
Qed.
(* REFUTED for all histories: disabling a channel, or assigning a larger image, frees the memory under a NumPy view taken before *)
Theorem C131_disable_refuted : forall full s, started full s -> h_live (fst (history full s [Enable false])) (v_block (snd s)) = false.
Proof. intros full (h, v) (L & B & _). cbn in *. rewrite Nat.eqb_refl. reflexivity. Qed.
Theorem C131_assign_refuted : forall full s n, started full s -> v_capacity (snd s) < n -> h_live (fst (history full s [Assign n])) (v_block (snd s)) = false.
Proof. intros full (h, v) n (L & B & _) C. cbn in *. destruct (Z.leb_spec n (v_capacity v)); [lia|]. cbn. rewrite Nat.eqb_refl. reflexivity. Qed.
(* once the memory is gone it stays gone, whatever follows *)
Lemma operate_inv full h v o (b : nat) : (b < h_next h)%nat -> h_live h b = false -> (v_block v < h_next h)%nat -> let '(h', v') := operate full (h, v) o in (b < h_next h')%nat /\ h_live h' b = false /\ (v_block v' < h_next h')%nat.
Proof.
  intros B L V. assert (R : forall n, let '(h', v') := replace h v n in (b < h_next h')%nat /\ h_live h' b = false /\ (v_block v' < h_next h')%nat).
  { intros n. cbn. repeat split; try lia. destruct (Nat.eqb_spec b (v_block v)); auto. destruct (Nat.eqb_spec b (h_next h)); [lia|auto]. }
  destruct o as [ [|]| | |n]; cbn [operate].
  - destruct (v_len v =? full); [auto|apply R].
  - apply R.
  - auto.
  - cbn. auto.
  - destruct (n <=? v_capacity v); [cbn; auto|apply R].
Qed.
Theorem C131_gone : forall full s l, started full s -> h_live (fst (history full s (Enable false :: l))) (v_block (snd s)) = false.
Proof.
  intros full (h, v) l (L & B & _). cbn [fst snd] in *. cbn [history fold_left operate].
  assert (G : forall l s b, (b < h_next (fst s))%nat -> h_live (fst s) b = false -> (v_block (snd s) < h_next (fst s))%nat -> h_live (fst (fold_left (operate full) l s)) b = false).
  { induction l0 as [|o l0 IH]; intros (h0, v0) b P Q R; cbn [fold_left]; auto. cbn [fst snd] in *. pose proof (operate_inv full h0 v0 o b P Q R) as X. destruct (operate full (h0, v0) o) as (h1, v1). destruct X as (X1 & X2 & X3); apply IH; assumption. }
  apply G; cbn; try lia. rewrite Nat.eqb_refl. reflexivity.
Qed.
Example C131_nonvacuous : exists s, started 12 s /\ history 12 s [Fill; Enable true; Assign 12] = s.
Proof. exists (Heap 1 (fun b => Nat.eqb b 0), Vec 0 12 12). split; [repeat split; cbn; lia|reflexivity]. Qed.
