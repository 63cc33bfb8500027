(* Model of the arithmetic of spectra: SpectralBins' constructors, operators and element access (include/huira/core/spectral_bins.hpp:60-171,
   include/huira_impl/core/spectral_bins.ipp:12-62, 405-668) and of the Python class SpectralBins
   (bindings/python/include/huira/core/spectral_bins_py.ipp:17-174). Bins are IEEE binary32 numbers with infinities and one NaN; operations round to nearest, ties to even.
   What pybind11 does is modelled as documented, as in PyQuantityModel.v: a size_t parameter takes Python integers in [0, 2^64); operators give NotImplemented when
   the other operand cannot be loaded, and x op= v then becomes x = x op v. Simplified: Python numbers are binary64 numbers; an integer is the float next to it. *)
From Coq Require Import ZArith List String Bool Lia.
From Flocq Require Import Core.
From Flocq Require Import IEEE754.BinarySingleNaN.
Import ListNotations.

Definition F32 := binary_float 24 128.
Definition F64 := binary_float 53 1024.
#[global] Instance prec24 : Prec_gt_0 24 := eq_refl _.
#[global] Instance emax128 : Prec_lt_emax 24 128 := eq_refl _.
#[global] Instance prec53 : Prec_gt_0 53 := eq_refl _.
#[global] Instance emax1024 : Prec_lt_emax 53 1024 := eq_refl _.

Definition fnan : F32 := B754_nan.
Inductive op := Add | Sub | Mul | Div.
Definition fop (o : op) (x y : F32) : F32 :=
  match o with Add => Bplus mode_NE x y | Sub => Bminus mode_NE x y | Mul => Bmult mode_NE x y | Div => Bdiv mode_NE x y end.

(** ** C++ *)
(* data_: an std::array of N floats *)
Definition write (d : list F32) (i : nat) (v : F32) : list F32 := firstn i d ++ match skipn i d with [] => [] | _ :: r => v :: r end.
(* the argument of operator op=(const U& scalar), a reference: to a number elsewhere, or to one of the object's own bins (s[j], s.front(), s.at(j)) *)
Inductive scalar := Number (k : F32) | OwnBin (j : nat).
Definition read (k : scalar) (d : list F32) : F32 := match k with Number v => v | OwnBin j => nth j d fnan end.
(* operator+=, -=, *=, /= (const U&), spectral_bins.ipp:451-489: the loop from bin i on, n bins left *)
Fixpoint scalar_loop (o : op) (k : scalar) (n i : nat) (d : list F32) : list F32 :=
  match n with 0 => d | S n' => scalar_loop o k n' (S i) (write d i (fop o (nth i d fnan) (read k d))) end.
Definition scalar_assign (o : op) (d : list F32) (k : scalar) : list F32 := scalar_loop o k (List.length d) 0 d.
(* operator+=, -=, *=, /= (const SpectralBins&), spectral_bins.ipp:412-446; None: the argument is the object itself *)
Fixpoint bins_loop (o : op) (other : option (list F32)) (n i : nat) (d : list F32) : list F32 :=
  match n with 0 => d | S n' => bins_loop o other n' (S i) (write d i (fop o (nth i d fnan) (nth i (match other with Some t => t | None => d end) fnan))) end.
Definition bins_assign (o : op) (d : list F32) (other : option (list F32)) : list F32 := bins_loop o other (List.length d) 0 d.
(* lhs op rhs, spectral_bins.ipp:564-633: a copy of lhs is assigned to, so the scalar is never one of the copy's bins *)
Definition bins_op (o : op) (a b : list F32) : list F32 := bins_assign o a (Some b).
Definition scalar_op (o : op) (a : list F32) (k : scalar) : list F32 := scalar_assign o a (Number (read k a)).
(* lhs op rhs with a scalar on the left, spectral_bins.ipp:638-668 *)
Definition left_op (o : op) (k : F32) (b : list F32) : list F32 :=
  match o with Add => scalar_op Add b (Number k) | Mul => scalar_op Mul b (Number k) | o => map (fun v => fop o k v) b end.
(* operator-() and operator==, spectral_bins.ipp:500-517 *)
Definition bins_neg (a : list F32) : list F32 := map Bopp a.
Fixpoint bins_eq (a b : list F32) : bool := match a, b with [], [] => true | x :: a', y :: b' => Beqb x y && bins_eq a' b' | _, _ => false end.
(* SpectralBins(std::initializer_list<float>), spectral_bins.ipp:33-43, for N bins: data_ has no initializer (spectral_bins.hpp:171), None is a bin never written *)
Definition init_list (N : nat) (l : list F32) : list (option F32) :=
  if Nat.eqb (List.length l) 1 then repeat (Some (hd fnan l)) N
  else let n := Nat.min (List.length l) N in map Some (firstn n l) ++ repeat None (N - n).

(** ** Python *)
(* a Python float passed for a float parameter, a float returned to Python *)
Definition to_float (x : F64) : F32 :=
  match x with B754_zero s => B754_zero s | B754_infinity s => B754_infinity s | B754_nan => B754_nan | B754_finite s m e _ => binary_normalize 24 128 _ _ mode_NE (cond_Zopp s (Zpos m)) e s end.
Definition to_double (x : F32) : F64 :=
  match x with B754_zero s => B754_zero s | B754_infinity s => B754_infinity s | B754_nan => B754_nan | B754_finite s m e _ => binary_normalize 53 1024 _ _ mode_NE (cond_Zopp s (Zpos m)) e s end.
Inductive pyerr := IndexError | ValueError | TypeError.
Inductive res (A : Type) := Val (a : A) | Raise (e : pyerr).
Arguments Val {A}. Arguments Raise {A}.
(* the operands: a spectrum, a number, anything else *)
Inductive pyv := PBins (d : list F32) | PNum (x : F64) | POther.
(* SpectralBins(values), spectral_bins_py.ipp:37-50, for a list of Python numbers *)
Definition py_list (N : nat) (l : list F64) : res (list F32) := if Nat.eqb (List.length l) N then Val (map to_float l) else Raise ValueError.
(* to_list, :159-168 *)
Definition py_to_list (d : list F32) : list F64 := map to_double d.
(* self[i], self[i] = v, :53-66 *)
Definition py_get (d : list F32) (i : Z) : res F64 :=
  if (0 <=? i)%Z && (i <? 2 ^ 64)%Z then if (Z.of_nat (List.length d) <=? i)%Z then Raise IndexError else Val (to_double (nth (Z.to_nat i) d fnan)) else Raise TypeError.
Definition py_set (d : list F32) (i : Z) (v : F64) : res (list F32) :=
  if (0 <=? i)%Z && (i <? 2 ^ 64)%Z then if (Z.of_nat (List.length d) <=? i)%Z then Raise IndexError else Val (write d (Z.to_nat i) (to_float v)) else Raise TypeError.
(* for v in self: Python asks for self[0], self[1], ... until IndexError *)
Inductive iterates (d : list F32) : Z -> list F64 -> Prop :=
  | Stops i : py_get d i = Raise IndexError -> iterates d i []
  | Gives i v l : py_get d i = Val v -> iterates d (i + 1) l -> iterates d i (v :: l).
(* self op other, :84-143 *)
Definition py_op (o : op) (d : list F32) (other : pyv) : res (list F32) :=
  match other with PBins t => Val (bins_op o d t) | PNum x => Val (scalar_assign o d (Number (to_float x))) | POther => Raise TypeError end.
(* x op self with a number on the left: only __rmul__ is bound, :121-126 *)
Definition py_rop (o : op) (x : F64) (d : list F32) : res (list F32) := match o with Mul => Val (scalar_assign Mul d (Number (to_float x))) | _ => Raise TypeError end.
(* self == other, :150: NotImplemented on both sides compares identities *)
Definition py_eq (d : list F32) (other : pyv) : bool := match other with PBins t => bins_eq d t | _ => false end.

(* variables name objects; y = x; the statement x op= y or x op= number, :80-83: in place for a spectrum *)
Record env := Env { vars : string -> nat; objs : nat -> list F32; next : nat }.
Definition assign (x y : string) (e : env) : env := Env (fun z => if String.eqb z x then vars e y else vars e z) (objs e) (next e).
Inductive rhs := Var (y : string) | Num (x : F64).
Definition run (o : op) (x : string) (r : rhs) (e : env) : env :=
  match r with
  | Var y => let t := if Nat.eqb (vars e y) (vars e x) then None else Some (objs e (vars e y)) in
      Env (vars e) (fun a => if Nat.eqb a (vars e x) then bins_assign o (objs e (vars e x)) t else objs e a) (next e)
  | Num k => Env (fun z => if String.eqb z x then next e else vars e z) (fun a => if Nat.eqb a (next e) then scalar_assign o (objs e (vars e x)) (Number (to_float k)) else objs e a) (S (next e))
  end.
