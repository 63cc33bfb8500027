From Coq Require Import Permutation Sorted.
From Verif Require Import Common Bytes StarCatalogModel StarCatalogSpec.

Lemma encode_star_length s : List.length (encode_star s) = 48%nat.
Proof. unfold encode_star. rewrite !app_length, !le_bytes_length. reflexivity. Qed.

Lemma skipn_plus {A} a b (l : list A) : skipn (a + b) l = skipn b (skipn a l).
Proof. revert l; induction a as [|a IH]; intros l; cbn; [reflexivity|]. destruct l; [rewrite skipn_nil; reflexivity|apply IH]. Qed.

Lemma field_skip (l x : list N) a off n : List.length x = a -> field (x ++ l) (a + off) n = field l off n.
Proof. intros H. unfold field. rewrite skipn_plus, skipn_app_exact by exact H. reflexivity. Qed.
Lemma field_head (l x : list N) n : List.length x = n -> field (x ++ l) 0 n = le_val x.
Proof. intros H. unfold field. cbn [skipn]. rewrite firstn_app_exact by exact H. reflexivity. Qed.

Lemma decode_encode_star s rest : star_ok s -> decode_star (encode_star s ++ rest) = s.
Proof.
  intros (H1 & H2 & H3 & H4 & H5 & H6 & H7 & H8). unfold decode_star, encode_star.
  rewrite <- !app_assoc.
  assert (L8 : forall n, List.length (le_bytes 8 n) = 8%nat) by (intros; apply le_bytes_length).
  assert (L4 : forall n, List.length (le_bytes 4 n) = 4%nat) by (intros; apply le_bytes_length).
  assert (V8 : forall n, (n < 2 ^ 64)%N -> le_val (le_bytes 8 n) = n) by (intros; apply le_val_bytes; exact H).
  assert (V4 : forall n, (n < 2 ^ 32)%N -> le_val (le_bytes 4 n) = n) by (intros; apply le_val_bytes; exact H).
  destruct s as [id ra dec pr pd so te ma]. cbn [s_id s_ra s_dec s_pmra s_pmdec s_solid s_temp s_mag] in *.
  f_equal.
  - rewrite field_head by apply L8. auto.
  - match goal with |- field ?l 8 8 = _ => change (field l (8 + 0) 8 = ra) end.
    rewrite field_skip, field_head by apply L8. auto.
  - change 16%nat with (8 + (8 + 0))%nat. rewrite !field_skip, field_head by apply L8. auto.
  - change 24%nat with (8 + (8 + (8 + 0)))%nat. rewrite !field_skip, field_head by (apply L8 || apply L4). auto.
  - change 28%nat with (8 + (8 + (8 + (4 + 0))))%nat. rewrite !field_skip, field_head by (apply L8 || apply L4). auto.
  - change 32%nat with (8 + (8 + (8 + (4 + (4 + 0)))))%nat. rewrite !field_skip, field_head by (apply L8 || apply L4). auto.
  - change 40%nat with (8 + (8 + (8 + (4 + (4 + (8 + 0))))))%nat. rewrite !field_skip, field_head by (apply L8 || apply L4). auto.
  - change 44%nat with (8 + (8 + (8 + (4 + (4 + (8 + (4 + 0)))))))%nat. rewrite !field_skip, field_head by (apply L8 || apply L4). auto.
Qed.

Lemma decode_encode_star' s : star_ok s -> decode_star (encode_star s) = s.
Proof. intros H. rewrite <- (app_nil_r (encode_star s)). apply decode_encode_star, H. Qed.

Lemma flat_encode_length l : List.length (flat_map encode_star l) = (48 * List.length l)%nat.
Proof. induction l as [|s l IH]; [reflexivity|]. cbn [flat_map List.length]. rewrite app_length, encode_star_length, IH. lia. Qed.

Lemma skipn_flat l k : (k <= List.length l)%nat -> skipn (48 * k) (flat_map encode_star l) = flat_map encode_star (skipn k l).
Proof.
  revert l; induction k as [|k IH]; intros l H; [rewrite Nat.mul_0_r; reflexivity|].
  destruct l as [|s l]; cbn [List.length] in H; [lia|].
  replace (48 * S k)%nat with (48 + 48 * k)%nat by lia. rewrite skipn_plus.
  cbn [flat_map]. change (skipn (S k) (s :: l)) with (skipn k l).
  rewrite skipn_app_exact by apply encode_star_length. apply IH. lia.
Qed.

Lemma records_flat l rest : forall n, n = List.length l -> records n (flat_map encode_star l ++ rest) = map encode_star l.
Proof.
  induction l as [|s l IH]; intros n ->; [reflexivity|].
  cbn [List.length records flat_map map]. rewrite <- app_assoc.
  rewrite firstn_app_exact, skipn_app_exact by apply encode_star_length. rewrite IH by reflexivity. reflexivity.
Qed.

Section Complete.
Variables (pad1 pad2 : list N) (ctype : N) (l : list star).
Hypothesis Hp1 : List.length pad1 = 3%nat.
Hypothesis Hp2 : List.length pad2 = 7%nat.
Hypothesis Hok : Forall star_ok l.
Hypothesis Hlen : (N.of_nat (List.length l) < 2 ^ 57)%N.

Let file := write_file pad1 pad2 ctype l.
Let hdr := encode_header pad1 pad2 ctype (N.of_nat (List.length l)).

Lemma hdr_length : List.length hdr = 32%nat.
Proof. unfold hdr, encode_header. rewrite !app_length, !le_bytes_length, Hp1, Hp2. reflexivity. Qed.

Lemma file_length : List.length file = (32 + 48 * List.length l)%nat.
Proof. unfold file, write_file. fold hdr. rewrite app_length, hdr_length, flat_encode_length. reflexivity. Qed.

Lemma skip_file k : (k <= List.length l)%nat -> skipn (32 + 48 * k) file = flat_map encode_star (skipn k l).
Proof.
  intros H. unfold file, write_file. fold hdr. rewrite skipn_plus, skipn_app_exact by apply hdr_length. apply skipn_flat, H.
Qed.

Definition mag_at (k : nat) : N := s_mag (nth k l default_star).

(* one probe of the binary search reads star mid *)
Lemma probe st mid temp : failed st = false -> (mid < N.of_nat (List.length l))%N ->
  exists st' temp', sread file (seekg st (32 + mid * 48)) 48 temp = (st', temp') /\ failed st' = false /\
    field temp' 44 4 = mag_at (N.to_nat mid).
Proof.
  intros Hf Hmid. unfold seekg. rewrite Hf.
  assert (Hw : (32 + mid * 48 < 9223372036854775808)%N).
  { change (2 ^ 57)%N with 144115188075855872%N in Hlen. lia. }
  rewrite N.mod_small by lia.
  replace (N.leb 9223372036854775808 (32 + mid * 48)) with false by (symmetry; apply N.leb_gt; exact Hw).
  unfold sread. cbn [failed pos].
  replace (N.to_nat (32 + mid * 48)) with (32 + 48 * N.to_nat mid)%nat by lia.
  rewrite skip_file by lia.
  destruct (nth_error l (N.to_nat mid)) as [s|] eqn:E; [|apply nth_error_None in E; lia].
  assert (Hs : skipn (N.to_nat mid) l = s :: skipn (S (N.to_nat mid)) l).
  { clear -E. revert E. generalize (N.to_nat mid) as k. induction l as [|x l' IH]; intros [|k] E; cbn in *; try discriminate.
    - congruence.
    - rewrite (IH k E). reflexivity. }
  rewrite Hs. cbn [flat_map]. rewrite firstn_app_exact by apply encode_star_length.
  rewrite encode_star_length.
  eexists _, _. split; [reflexivity|]. split; [reflexivity|].
  pose proof (nth_error_In _ _ E) as Hin. rewrite Forall_forall in Hok. specialize (Hok s Hin).
  pose proof (decode_encode_star s (skipn 48 temp) Hok) as D.
  assert (D' : s_mag (decode_star (encode_star s ++ skipn 48 temp)) = s_mag s) by (rewrite D; reflexivity).
  unfold mag_at. erewrite nth_error_nth by exact E. exact D'.
Qed.

Section Search.
Variable max : N.
Hypothesis Hmono : forall i j, (i < j)%nat -> (j < List.length l)%nat ->
  f32_le (mag_at j) max = true -> f32_le (mag_at i) max = true.

Lemma search_correct : forall fuel low high st temp,
  failed st = false -> (low <= high)%N -> (high <= N.of_nat (List.length l))%N ->
  (high - low < 2 ^ N.of_nat fuel)%N ->
  (forall i, (i < N.to_nat low)%nat -> f32_le (mag_at i) max = true) ->
  (forall i, (N.to_nat high <= i)%nat -> (i < List.length l)%nat -> f32_le (mag_at i) max = false) ->
  exists cut st', search file max (S fuel) low high st temp = Ok (cut, st') /\ failed st' = false /\
    (cut <= N.of_nat (List.length l))%N /\
    (forall i, (i < N.to_nat cut)%nat -> f32_le (mag_at i) max = true) /\
    (forall i, (N.to_nat cut <= i)%nat -> (i < List.length l)%nat -> f32_le (mag_at i) max = false).
Proof.
  induction fuel as [|f IH]; intros low high st temp Hf Hlh Hh Hfuel Hlo Hhi.
  - cbn [N.of_nat] in Hfuel. rewrite N.pow_0_r in Hfuel.
    cbn [search]. replace (N.ltb low high) with false by (symmetry; apply N.ltb_ge; lia).
    exists low, st. assert (low = high) by lia. subst. repeat (split; auto).
  - change (search file max (S (S f)) low high st temp) with
      (if N.ltb low high then
        let mid := (low + (high - low) / 2)%N in
        let st1 := seekg st (32 + mid * 48) in
        let (st2, temp') := sread file st1 48 temp in
        if f32_le (field temp' 44 4) max
        then search file max (S f) (mid + 1) high st2 temp'
        else search file max (S f) low mid st2 temp'
      else Ok (low, st)).
    destruct (N.ltb_spec low high) as [Hlt|Hge].
    + set (mid := (low + (high - low) / 2)%N). cbv zeta.
      assert (Hm : (low <= mid)%N /\ (mid < high)%N /\ (mid - low < 2 ^ N.of_nat f)%N /\ (high - (mid + 1) < 2 ^ N.of_nat f)%N).
      { rewrite Nat2N.inj_succ, N.pow_succ_r' in Hfuel. unfold mid. 
        pose proof (N.div_mod (high - low) 2 ltac:(lia)). pose proof (N.mod_lt (high - low) 2 ltac:(lia)).
        set (q := ((high - low) / 2)%N) in *. lia. }
      destruct Hm as (M1 & M2 & M3 & M4).
      destruct (probe st mid temp Hf ltac:(lia)) as (st' & temp' & E & Hf' & Hmag).
      rewrite E, Hmag.
      destruct (f32_le (mag_at (N.to_nat mid)) max) eqn:Ele.
      * apply IH; auto; try lia.
        intros i Hi. destruct (Nat.eq_dec i (N.to_nat mid)) as [->|]; [exact Ele|].
        apply (Hmono i (N.to_nat mid)); [lia|lia|exact Ele].
      * apply IH; auto; try lia.
        intros i Hi Hil. destruct (Nat.eq_dec i (N.to_nat mid)) as [->|]; [exact Ele|].
        destruct (f32_le (mag_at i) max) eqn:Ei; [|reflexivity].
        assert (X : f32_le (mag_at (N.to_nat mid)) max = true) by (apply (Hmono (N.to_nat mid) i); [lia|exact Hil|exact Ei]). congruence.
    + exists low, st. assert (low = high) by lia. subst. repeat (split; auto).
Qed.
End Search.

Lemma filter_prefix (p : star -> bool) cut : (cut <= List.length l)%nat ->
  (forall i, (i < cut)%nat -> p (nth i l default_star) = true) ->
  (forall i, (cut <= i)%nat -> (i < List.length l)%nat -> p (nth i l default_star) = false) ->
  filter p l = firstn cut l.
Proof.
  clear. revert cut. induction l as [|s l' IH]; intros cut Hc H1 H2; [destruct cut; reflexivity|].
  cbn [List.length] in Hc. destruct cut as [|cut].
  - cbn [firstn filter]. pose proof (H2 0%nat ltac:(lia) ltac:(cbn; lia)) as E. cbn [nth] in E. rewrite E.
    rewrite (IH 0%nat); [reflexivity|lia|intros; lia|]. intros i _ Hi. apply (H2 (S i)); cbn; lia.
  - cbn [firstn filter]. pose proof (H1 0%nat ltac:(lia)) as E. cbn [nth] in E. rewrite E. f_equal. apply IH; [lia| |].
    + intros i Hi. apply (H1 (S i)). lia.
    + intros i Hi Hil. apply (H2 (S i)); cbn; lia.
Qed.

Lemma read_complete max :
  (forall i j, (i < j)%nat -> (j < List.length l)%nat ->
     f32_le (mag_at j) max = true -> f32_le (mag_at i) max = true) ->
  read_file file max = Ok (ctype, filter (fun s => f32_le (s_mag s) max) l).
Proof.
  intros Hmono. unfold read_file.
  assert (R : sread file (Stream 0 false) 32 (repeat 0%N 32) = (Stream 32 false, hdr)).
  { unfold sread. cbn [failed pos N.to_nat skipn].
    unfold file, write_file. fold hdr. rewrite firstn_app_exact by apply hdr_length. rewrite hdr_length.
    cbn [skipn repeat]. rewrite app_nil_r. reflexivity. }
  rewrite R.
  assert (Hmagic : (N.eqb (nth 0 hdr 0%N) 72 && N.eqb (nth 1 hdr 0%N) 82 && N.eqb (nth 2 hdr 0%N) 83 && N.eqb (nth 3 hdr 0%N) 67)%bool = true) by reflexivity.
  assert (Hver : N.eqb (nth 4 hdr 0%N) 1 = true) by reflexivity.
  rewrite Hmagic, Hver. cbn [negb].
  assert (Hcount : field hdr 24 8 = N.of_nat (List.length l)).
  { unfold hdr, encode_header.
    assert (L8 : forall n, List.length (le_bytes 8 n) = 8%nat) by (intros; apply le_bytes_length).
    change 24%nat with (4 + (1 + (3 + (8 + (1 + (7 + 0))))))%nat.
    rewrite !field_skip by (reflexivity || exact Hp1 || exact Hp2 || apply L8).
    rewrite <- (app_nil_r (le_bytes 8 (N.of_nat _))). rewrite field_head by apply L8.
    apply le_val_bytes. change (256 ^ N.of_nat 8)%N with (2 ^ 64)%N. change (2 ^ 57)%N with 144115188075855872%N in Hlen.
    change (2 ^ 64)%N with 18446744073709551616%N. lia. }
  assert (Htype : nth 16 hdr 0%N = ctype).
  { unfold hdr, encode_header. destruct pad1 as [|a [|b [|c [|d p]]]]; cbn in Hp1; try lia. reflexivity. }
  rewrite Hcount, Htype.
  destruct (search_correct max Hmono 65 0 (N.of_nat (List.length l)) (Stream 32 false) (encode_star default_star))
    as (cut & st' & E & Hf & Hc & H1 & H2); try reflexivity.
  { lia. }
  { change (2 ^ N.of_nat 65)%N with 36893488147419103232%N. change (2 ^ 57)%N with 144115188075855872%N in Hlen. lia. }
  { intros i Hi. lia. }
  { intros i Hi Hi2. lia. }
  rewrite E. cbn [obind].
  unfold seekg. rewrite Hf. 
  replace (32 mod 18446744073709551616)%N with 32%N by reflexivity.
  replace (N.leb 9223372036854775808 32) with false by reflexivity.
  unfold sread. cbn [failed pos].
  change (N.to_nat 32) with (32 + 48 * 0)%nat. rewrite skip_file by lia. cbn [skipn].
  set (n := N.to_nat cut).
  assert (Hn : (n <= List.length l)%nat) by lia.
  assert (Hfirst : firstn (n * 48) (flat_map encode_star l) = flat_map encode_star (firstn n l)).
  { rewrite <- (firstn_skipn n l) at 1. rewrite flat_map_app. apply firstn_app_exact.
    rewrite flat_encode_length, firstn_length. lia. }
  rewrite Hfirst, flat_encode_length, firstn_length.
  rewrite skipn_all2 by (rewrite flat_encode_length, repeat_length; lia).
  rewrite records_flat by (rewrite firstn_length; lia).
  rewrite map_map. f_equal. f_equal.
  transitivity (firstn n l).
  - rewrite <- (map_id (firstn n l)) at 2. apply map_ext_in. intros s Hs.
    apply decode_encode_star'. rewrite Forall_forall in Hok. apply Hok.
    rewrite <- (firstn_skipn n l). apply in_or_app. auto.
  - symmetry. apply (filter_prefix (fun s => f32_le (s_mag s) max) n Hn); auto.
Qed.
End Complete.

(* sortedness makes the cutoff monotone *)
Lemma sorted_mono l max : Forall (fun s => f32_nan (s_mag s) = false) l ->
  StronglySorted (fun a b => f32_lt (s_mag b) (s_mag a) = false) l ->
  forall i j, (i < j)%nat -> (j < List.length l)%nat ->
    f32_le (mag_at l j) max = true -> f32_le (mag_at l i) max = true.
Proof.
  intros Hn Hs. unfold mag_at. induction Hs as [|s l Hs IH Hall]; intros i j Hij Hj Hle; cbn [List.length] in Hj; [lia|].
  inversion Hn as [|? ? Hn1 Hn2]; subst.
  destruct j as [|j]; [lia|]. destruct i as [|i].
  - cbn [nth] in *. 
    assert (Hin : In (nth j l default_star) l) by (apply nth_In; lia).
    rewrite Forall_forall in Hall, Hn2. specialize (Hall _ Hin). specialize (Hn2 _ Hin). cbv beta in Hall, Hn2.
    unfold f32_le, f32_lt in *. rewrite Hn1, Hn2 in *. cbn [negb andb] in *.
    destruct (f32_nan max); cbn [negb andb] in *; [discriminate|]. lia.
  - cbn [nth] in *. apply (IH Hn2 i j); auto; lia.
Qed.

Lemma f32_le_inf b : (b < 2 ^ 32)%N -> f32_nan b = false -> f32_le b f32_inf = true.
Proof.
  intros Hb Hn. unfold f32_le. rewrite Hn. cbn [negb andb]. replace (f32_nan f32_inf) with false by reflexivity.
  cbn [negb andb]. unfold f32_nan in Hn. unfold f32_key. replace (N.testbit f32_inf 31) with false by reflexivity.
  replace (N.land f32_inf 2147483647) with 2139095040%N by reflexivity.
  destruct (N.testbit b 31); lia.
Qed.

Lemma filter_all {A} (p : A -> bool) l : Forall (fun x => p x = true) l -> filter p l = l.
Proof. induction 1 as [|x l Hx Hl IH]; cbn; [reflexivity|]. rewrite Hx, IH. reflexivity. Qed.

Lemma writable_nan l : Forall (fun s => f32_nan (s_mag s) = false) (writable l).
Proof. apply Forall_forall. intros s Hs. unfold writable in Hs. apply filter_In in Hs. destruct Hs as [_ H].
  destruct (f32_nan (s_mag s)); [discriminate|reflexivity]. Qed.

Lemma Permutation_Forall' {A} (P : A -> Prop) l l' : Permutation l l' -> Forall P l -> Forall P l'.
Proof. intros Hp H. rewrite Forall_forall in *. intros x Hx. apply H. eapply Permutation_in; [apply Permutation_sym; exact Hp|exact Hx]. Qed.

Lemma roundtrip pad1 pad2 ctype l sorted max :
  List.length pad1 = 3%nat -> List.length pad2 = 7%nat -> Forall star_ok l ->
  (N.of_nat (List.length l) < 2 ^ 57)%N -> sorts_to (writable l) sorted ->
  read_file (write_file pad1 pad2 ctype sorted) max = Ok (ctype, filter (fun s => f32_le (s_mag s) max) sorted).
Proof.
  intros H1 H2 Hok Hlen [Hp Hs].
  assert (Hw : Forall star_ok (writable l)).
  { apply Forall_forall. intros s Hin. unfold writable in Hin. apply filter_In in Hin. rewrite Forall_forall in Hok. apply Hok. tauto. }
  assert (Hlw : (List.length (writable l) <= List.length l)%nat).
  { unfold writable. clear. induction l as [|x l IH]; cbn; [lia|]. destruct (negb _); cbn; lia. }
  pose proof (Permutation_length Hp) as Hpl.
  apply read_complete; auto.
  - eapply Permutation_Forall'; eauto.
  - lia.
  - apply sorted_mono; [|exact Hs]. eapply Permutation_Forall'; [exact Hp|apply writable_nan].
Qed.

(* bad magic or version is rejected *)
Lemma reject file max :
  (firstn 4 file <> [72; 82; 83; 67]%N \/ nth 4 file 0%N <> 1%N) -> read_file file max = Throws.
Proof.
  intros H. unfold read_file.
  assert (R : exists st rest, sread file (Stream 0 false) 32 (repeat 0%N 32) = (st, firstn 32 file ++ rest) /\ 
     rest = skipn (List.length (firstn 32 file)) (repeat 0%N 32)).
  { unfold sread. cbn [failed pos N.to_nat skipn]. eexists _, _. split; reflexivity. }
  destruct R as (st & rest & R & Hrest). rewrite R.
  assert (Hn : forall k, (k < 32)%nat -> nth k (firstn 32 file ++ rest) 0%N = nth k file 0%N).
  { intros k Hk. rewrite <- (firstn_skipn 32 file) at 2.
    destruct (Nat.lt_ge_cases k (List.length (firstn 32 file))) as [Hlt|Hge].
    - rewrite !app_nth1 by exact Hlt. reflexivity.
    - rewrite !app_nth2 by exact Hge. rewrite Hrest.
      rewrite firstn_length in *. assert (List.length file < 32)%nat by lia.
      rewrite (skipn_all2 file) by lia.
      assert (Z : forall a n k, nth k (skipn a (repeat 0%N n)) 0%N = 0%N).
      { clear. intros a n k. revert n k. induction a as [|a IH]; intros n k; cbn [skipn].
        - revert k. induction n as [|n IHn]; intros [|k]; cbn; auto.
        - destruct n as [|n]; cbn; [destruct k; reflexivity|apply IH]. }
      rewrite Z. destruct (k - _)%nat; reflexivity. }
  rewrite !Hn by lia.
  destruct (N.eqb_spec (nth 0 file 0%N) 72); destruct (N.eqb_spec (nth 1 file 0%N) 82);
    destruct (N.eqb_spec (nth 2 file 0%N) 83); destruct (N.eqb_spec (nth 3 file 0%N) 67); cbn [andb negb]; try reflexivity.
  destruct (N.eqb_spec (nth 4 file 0%N) 1); cbn [negb]; [|reflexivity].
  exfalso. destruct H as [H|H]; [|contradiction]. apply H.
  destruct file as [|a [|b [|c [|d f]]]]; cbn in *; congruence.
Qed.

(** Tycho ids *)
Lemma land_ones_k a k : N.land a (N.ones k) = (a mod 2 ^ k)%N.
Proof. apply N.land_ones. Qed.

Lemma unpack_pack t1 t2 t3 : (t1 < 2 ^ 16 -> t2 < 2 ^ 16 -> t3 < 2 ^ 8 ->
  unpack (pack t1 t2 t3) = (t1 mod 2 ^ 14, N.lor t2 (t3 / 16), t3 mod 16))%N.
Proof.
  intros H1 H2 H3. unfold unpack, pack.
  assert (B2 : forall i, (16 <= i)%N -> N.testbit t2 i = false).
  { intros i Hi. destruct (N.eq_dec t2 0) as [->|Hz]; [apply N.bits_0|]. apply N.bits_above_log2.
    apply N.log2_lt_pow2; [lia|]. eapply N.lt_le_trans; [exact H2|]. apply N.pow_le_mono_r; lia. }
  assert (B3 : forall i, (8 <= i)%N -> N.testbit t3 i = false).
  { intros i Hi. destruct (N.eq_dec t3 0) as [->|Hz]; [apply N.bits_0|]. apply N.bits_above_log2.
    apply N.log2_lt_pow2; [lia|]. eapply N.lt_le_trans; [exact H3|]. apply N.pow_le_mono_r; lia. }
  f_equal; [f_equal|].
  - change 16383%N with (N.ones 14). rewrite N.land_ones. rewrite !N.shiftr_lor. f_equal.
    apply N.bits_inj. intros i. rewrite !N.lor_spec, !N.shiftr_spec' .
    rewrite N.shiftl_spec_high' by lia. rewrite N.shiftl_spec_high' by lia.
    replace (i + 20 - 20)%N with i by lia. rewrite (B2 (i + 20 - 4)%N), (B3 (i + 20)%N) by lia. rewrite !orb_false_r. reflexivity.
  - change 65535%N with (N.ones 16). apply N.bits_inj. intros i. rewrite N.land_spec, N.shiftr_spec', !N.lor_spec.
    change 16%N with (2 ^ 4)%N. rewrite <- N.shiftr_div_pow2, N.shiftr_spec'.
    destruct (N.lt_ge_cases i 16) as [Hi|Hi].
    + rewrite N.ones_spec_low by lia. rewrite N.shiftl_spec_low by lia. rewrite N.shiftl_spec_high' by lia.
      replace (i + 4 - 4)%N with i by lia. rewrite andb_true_r. reflexivity.
    + rewrite N.ones_spec_high by lia. rewrite andb_false_r. rewrite B2, B3 by lia. reflexivity.
  - change 15%N with (N.ones 4). change 16%N with (2 ^ 4)%N. rewrite <- N.land_ones.
    apply N.bits_inj. intros i. rewrite !N.land_spec, !N.lor_spec.
    destruct (N.lt_ge_cases i 4) as [Hi|Hi].
    + rewrite (N.shiftl_spec_low t1) by lia. rewrite (N.shiftl_spec_low t2) by lia. reflexivity.
    + rewrite N.ones_spec_high by lia. rewrite !andb_false_r. reflexivity.
Qed.

Lemma unpack_pack_valid t1 t2 t3 : (t1 < 2 ^ 14 -> t2 < 2 ^ 16 -> t3 < 2 ^ 4 -> unpack (pack t1 t2 t3) = (t1, t2, t3))%N.
Proof.
  intros H1 H2 H3. rewrite unpack_pack; try lia.
  rewrite (N.mod_small t1) by exact H1. change 16%N with (2 ^ 4)%N.
    rewrite (N.mod_small t3) by exact H3. rewrite N.div_small by exact H3. rewrite N.lor_0_r. reflexivity.
Qed.
