(* Shared vocabulary of the model: outcomes of C++ calls and array update. *)
From Coq Require Export List Arith ZArith NArith Lia Bool String.
Require Export ZifyBool ZifyNat ZifyN.
Export ListNotations.
Ltac Zify.zify_post_hook ::= Z.div_mod_to_equations.

(* Outcome of a C++ call: normal return, thrown exception, or undefined behaviour.
   Modelling vocabulary only; it models no particular /repo definition. *)
Inductive outcome (A : Type) : Type :=
| Ok (a : A)
| Throws
| UB.
Arguments Ok {A} a.
Arguments Throws {A}.
Arguments UB {A}.

(* Sequencing of outcomes (an exception or undefined behaviour ends the call). *)
Definition obind {A B} (x : outcome A) (f : A -> outcome B) : outcome B :=
  match x with Ok a => f a | Throws => Throws | UB => UB end.

(* Array store a[i] := v on the list representation; unchanged when i is out of range
   (every model that uses it checks the range first and returns UB otherwise). *)
Fixpoint upd {A} (l : list A) (i : nat) (v : A) : list A :=
  match l, i with
  | [], _ => []
  | _ :: t, O => v :: t
  | x :: t, S j => x :: upd t j v
  end.

Lemma upd_length {A} (l : list A) i v : List.length (upd l i v) = List.length l.
Proof. revert i; induction l as [|x l IH]; intros [|i]; simpl; auto. Qed.

Lemma nth_upd_eq {A} (l : list A) i v d : (i < List.length l)%nat -> nth i (upd l i v) d = v.
Proof. revert i; induction l as [|x l IH]; intros [|i] H; simpl in *; try lia; auto.
  apply IH; lia. Qed.

Lemma nth_upd_neq {A} (l : list A) i j v d : i <> j -> nth j (upd l i v) d = nth j l d.
Proof. revert i j; induction l as [|x l IH]; intros [|i] [|j] H; simpl; auto; try lia. Qed.

Lemma nth_error_upd_eq {A} (l : list A) i v : (i < List.length l)%nat -> nth_error (upd l i v) i = Some v.
Proof. revert i; induction l as [|x l IH]; intros [|i] H; simpl in *; try lia; auto.
  apply IH; lia. Qed.

Lemma nth_error_upd_neq {A} (l : list A) i j v : i <> j -> nth_error (upd l i v) j = nth_error l j.
Proof. revert i j; induction l as [|x l IH]; intros [|i] [|j] H; simpl; auto; try lia. Qed.

Lemma list_eq_nth {A} (d : A) (l l' : list A) :
  List.length l = List.length l' ->
  (forall i, (i < List.length l)%nat -> nth i l d = nth i l' d) -> l = l'.
Proof. intros H1 H2. eapply nth_ext; eauto. Qed.
