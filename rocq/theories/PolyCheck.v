(* Positive polynomials on an interval: exact integer Taylor shifts. *)
From Coq Require Import Reals Lra Lia List ZArith Psatz.
Import ListNotations.
Open Scope R_scope.
Fixpoint peval (p : list Z) (t : R) : R := match p with [] => 0 | a :: q => IZR a + t * peval q t end.
Fixpoint padd (p q : list Z) : list Z := match p, q with [], _ => q | _, [] => p | a :: p', b :: q' => (a + b)%Z :: padd p' q' end.
Fixpoint pshift (p : list Z) (c : Z) : list Z := match p with [] => [] | a :: q => let s := pshift q c in padd [a] (padd (map (Z.mul c) s) (0%Z :: s)) end.
Fixpoint pabs (p : list Z) (h : Z) : Z := match p with [] => 0%Z | a :: q => (Z.abs a + h * pabs q h)%Z end.
Definition check_at (p : list Z) (h c : Z) : bool := match pshift p c with [] => false | a :: q => (h * pabs q h <? a)%Z end.
(* the intervals [c - h, c + h], c = h, 3h, ..., (2n - 1) h cover [0, 2 n h] *)
Fixpoint check_from (p : list Z) (h c : Z) (n : nat) : bool := match n with O => true | S k => (check_at p h c && check_from p h (c + 2 * h) k)%bool end.
Lemma peval_add p q t : peval (padd p q) t = peval p t + peval q t.
Proof. revert q. induction p as [|a p IH]; intros [|b q]; cbn [padd peval]; try lra. rewrite IH, plus_IZR. ring. Qed.
Lemma peval_scal c p t : peval (map (Z.mul c) p) t = IZR c * peval p t.
Proof. induction p as [|a p IH]; cbn [map peval]; [ring|]. rewrite IH, mult_IZR. ring. Qed.
Lemma peval_shift p c t : peval (pshift p c) t = peval p (IZR c + t).
Proof. induction p as [|a p IH]; cbn [pshift peval]; auto. rewrite !peval_add, peval_scal. cbn [peval]. rewrite IH. ring. Qed.
Lemma pabs_bound p h t : (0 <= h)%Z -> Rabs t <= IZR h -> Rabs (peval p t) <= IZR (pabs p h).
Proof.
  intros H T. induction p as [|a p IH]; cbn [peval pabs]; [rewrite Rabs_R0; lra|]. rewrite plus_IZR, mult_IZR, abs_IZR.
  eapply Rle_trans; [apply Rabs_triang|]. apply Rplus_le_compat_l. rewrite Rabs_mult. apply Rmult_le_compat; auto; apply Rabs_pos.
Qed.
Lemma check_at_pos p h c t : (0 <= h)%Z -> check_at p h c = true -> Rabs (t - IZR c) <= IZR h -> 0 < peval p t.
Proof.
  intros H C T. replace t with (IZR c + (t - IZR c)) by ring. rewrite <- peval_shift. unfold check_at in C. destruct (pshift p c) as [|a q]; [discriminate|]. apply Z.ltb_lt in C. apply IZR_lt in C. rewrite mult_IZR in C. cbn [peval].
  pose proof (pabs_bound q h _ H T) as B. set (s := t - IZR c) in *. assert (Rabs (s * peval q s) <= IZR h * IZR (pabs q h)) by (rewrite Rabs_mult; apply Rmult_le_compat; auto; apply Rabs_pos). apply Rabs_le_between in H0 || (revert H0; unfold Rabs; destruct (Rcase_abs _)); lra.
Qed.
Lemma check_from_pos p h n : (0 < h)%Z -> forall c, check_from p h c n = true -> forall t, (0 < n)%nat -> IZR (c - h) <= t <= IZR (c - h) + 2 * IZR h * INR n -> 0 < peval p t.
Proof.
  intros H. induction n as [|n IH]; intros c C t N T; [lia|]. cbn [check_from] in C. apply andb_prop in C. destruct C as (C1 & C2). destruct (Rle_lt_dec t (IZR (c + h))) as [L|L].
  - apply (check_at_pos p h c); auto; [lia|]. rewrite minus_IZR in T. rewrite plus_IZR in L. apply Rabs_le. lra.
  - apply (IH _ C2); rewrite S_INR in T; rewrite minus_IZR in T; rewrite plus_IZR in L.
    + destruct n as [|n]; [|lia]. cbn [INR] in T. lra.
    + replace (c + 2 * h - h)%Z with (c + h)%Z by ring. rewrite plus_IZR in *. lra.
Qed.
