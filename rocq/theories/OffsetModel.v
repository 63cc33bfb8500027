(* Model of include/huira_impl/render/interaction.ipp (offset_intersection_ for float, the only instance the renderer uses).
   A coordinate is the int32 view of its binary32 representation; the normal's coordinates are real values (of floats). *)
From Coq Require Import Reals ZArith.
From Flocq Require Import Core.
From Verif Require Import Common Float32 Vec3 PixelModel.
Open Scope R_scope.

(* the magnitude with the low 31 bits m of a binary32 number (IEEE 754): below 2^23 subnormal *)
Definition mag (m : Z) : R := if (m <? 2 ^ 23)%Z then IZR m * bpow radix2 (-149) else IZR (2 ^ 23 + m mod 2 ^ 23) * bpow radix2 (m / 2 ^ 23 - 150).
Inductive fval := Fin (r : R) | NonFinite.
(* int_as_float, interaction.ipp:81-92: the value of an int32 pattern *)
Definition value (b : Z) : fval := let m := (b mod 2 ^ 31)%Z in if (m <? 255 * 2 ^ 23)%Z then Fin (if (b <? 0)%Z then - mag m else mag m) else NonFinite.
(* x < 0 on a float: also true for minus infinity *)
Definition is_neg (b : Z) : bool := match value b with Fin r => Rltb r 0 | NonFinite => Z.eqb b (255 * 2 ^ 23 - 2 ^ 31) end.
(* std::abs(x) < origin<float>() = 1/32, 17-24, 134-139 *)
Definition near_zero (b : Z) : bool := match value b with Fin r => Rltb (Rabs r) (1 / 32) | NonFinite => false end.
(* int32_t addition; overflow is undefined *)
Definition int_add (a b : Z) : outcome Z := let s := (a + b)%Z in if ((- 2 ^ 31 <=? s) && (s <? 2 ^ 31))%Z then Ok s else UB.
(* offset_int, 118-124: int_scale<float>() = 256 *)
Definition offset_int (n : R) : outcome Z := cast_int (- 2 ^ 31) (2 ^ 31 - 1) (fl (256 * n)).
(* one coordinate of offset_intersection_, 115-140. Both branches' operands are computed first (offset_result, 126-132), so their undefined
   behaviour counts in either case. The sum of the near branch is below 1/16 for |n| <= 1, so it does not overflow. *)
Definition offset_coord (b : Z) (n : R) : outcome fval :=
  match offset_int n with
  | Ok off =>
    match int_add b (if is_neg b then - off else off)%Z with
    | Ok s => Ok (if near_zero b then match value b with Fin x => Fin (fl (x + fl (1 / 65536 * n))) | NonFinite => NonFinite end else value s)
    | Throws => Throws | UB => UB
    end
  | Throws => Throws | UB => UB
  end.
(* offset_intersection_, 115-140 *)
Definition offset_intersection (bx by' bz : Z) (n : vec3) : outcome (fval * fval * fval) :=
  match offset_coord bx (vx n), offset_coord by' (vy n), offset_coord bz (vz n) with
  | Ok x, Ok y, Ok z => Ok (x, y, z)
  | UB, _, _ | _, UB, _ | _, _, UB => UB
  | _, _, _ => Throws
  end.
