(* Little-endian byte encoding shared by the binary file models. Bytes are N values < 256. *)
From Verif Require Import Common.

(* k little-endian bytes of n (object representation of an unsigned integer on the little-endian
   platforms the library writes its files on) *)
Fixpoint le_bytes (k : nat) (n : N) : list N :=
  match k with O => [] | S k' => (n mod 256)%N :: le_bytes k' (n / 256)%N end.

(* value of little-endian bytes *)
Fixpoint le_val (l : list N) : N :=
  match l with [] => 0%N | b :: r => (b + 256 * le_val r)%N end.

Lemma le_bytes_length k n : List.length (le_bytes k n) = k.
Proof. revert n; induction k as [|k IH]; intros n; cbn [le_bytes List.length]; [reflexivity|]. rewrite IH. reflexivity. Qed.

Lemma le_val_bytes k : forall n, (n < 256 ^ N.of_nat k)%N -> le_val (le_bytes k n) = n.
Proof.
  induction k as [|k IH]; intros n H; cbn [le_bytes le_val].
  - change (256 ^ N.of_nat 0)%N with 1%N in H. lia.
  - rewrite IH.
    + pose proof (N.div_mod n 256). lia.
    + rewrite Nat2N.inj_succ, N.pow_succ_r' in H. apply N.div_lt_upper_bound; lia.
Qed.

Lemma firstn_app_exact {A} (a b : list A) n : List.length a = n -> firstn n (a ++ b) = a.
Proof. intros <-. rewrite firstn_app, Nat.sub_diag, firstn_all. cbn. apply app_nil_r. Qed.
Lemma skipn_app_exact {A} (a b : list A) n : List.length a = n -> skipn n (a ++ b) = b.
Proof. intros <-. rewrite skipn_app, Nat.sub_diag, skipn_all. reflexivity. Qed.
