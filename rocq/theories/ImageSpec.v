(* Specification vocabulary for images. *)
From Verif Require Import Common ImageModel.
From Coq Require Import Reals.
Open Scope R_scope.

(* an image as the constructors make it: non-negative size, one stored pixel per position, an int's worth of pixels *)
Definition valid {A} (im : img A) : Prop :=
  (0 <= im_w im)%Z /\ (0 <= im_h im)%Z /\ Z.of_nat (List.length (im_data im)) = (im_w im * im_h im)%Z /\ (im_w im * im_h im < 2 ^ 31)%Z.
Definition inside {A} (im : img A) (x y : Z) : Prop := (0 <= x < im_w im)%Z /\ (0 <= y < im_h im)%Z.
(* what a float rounding does, at least: it is monotone and exact on the integers up to 2^24 *)
Definition float_rounding (rnd : R -> R) : Prop :=
  (forall a b, a <= b -> rnd a <= rnd b) /\ (forall n : Z, (Z.abs n <= 2 ^ 24)%Z -> rnd (IZR n) = IZR n).
Definition exact (x : R) : R := x.
(* coordinates for which the wrap mode is defined *)
Definition wrappable (m : wrap_mode) (c : R) : Prop := match m with Mirror => Rabs c < IZR (2 ^ 31) | _ => True end.

(* linear (not circular) convolution: sum over all kernel positions of the kernel value times the image value at the
   mirrored offset, the image being 0 outside its frame *)
Definition zero_ext (im : fimg) (x y : Z) : R :=
  if (in_range (fw im) x && in_range (fh im) y)%bool then fp im (Z.to_nat x) (Z.to_nat y) else 0.
Definition convolution (im k : fimg) (x y : nat) : R :=
  sumf (fh k) (fun ky => sumf (fw k) (fun kx =>
    zero_ext im (Z.of_nat x - (Z.of_nat kx - Z.of_nat (fw k / 2))) (Z.of_nat y - (Z.of_nat ky - Z.of_nat (fh k / 2))) * fp k kx ky)).
(* same size and same pixels *)
Definition same_image (a b : fimg) : Prop :=
  fw a = fw b /\ fh a = fh b /\ forall x y, (x < fw a)%nat -> (y < fh a)%nat -> fp a x y = fp b x y.
(* the kernel looks the same from the opposite side of its centre *)
Definition point_symmetric (k : fimg) : Prop :=
  forall kx ky, (kx < fw k)%nat -> (ky < fh k)%nat -> fp k (fw k - 1 - kx) (fh k - 1 - ky) = fp k kx ky.
