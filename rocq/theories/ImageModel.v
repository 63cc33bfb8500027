(* Model of Image<PixelT>, include/huira_impl/images/image.ipp. Indices are exact: C++ int overflow and out-of-bounds
   access are the outcome UB. Texture coordinates are reals; every float operation of the sampling code is followed by
   the rounding function rnd, a parameter (rnd x = x is exact arithmetic; the theorems say what they need of it).
   Pixels are of any type A, or R where the code does arithmetic on them (the channels of a pixel are independent). *)
From Verif Require Import Common Vec3.
From Coq Require Import Reals Lra.
Open Scope R_scope.

(* the data members, image.hpp:138-139: resolution_ and data_ *)
Record img (A : Type) := Img { im_w : Z; im_h : Z; im_data : list A }.
Arguments Img {A}. Arguments im_w {A}. Arguments im_h {A}. Arguments im_data {A}.

(* range of int; a signed result outside is undefined behaviour *)
Definition int_ok (z : Z) : bool := ((- 2 ^ 31 <=? z) && (z <? 2 ^ 31))%Z.
(* static_cast<std::size_t> of an int *)
Definition to_size (z : Z) : Z := (z mod 2 ^ 64)%Z.

(* Image(width, height, fill), image.ipp:73-77 (and 29-61): the product is an int; a negative product becomes a
   huge size_t, for which std::vector throws length_error. Available memory is not modelled. *)
Definition new_image {A} (w h : Z) (fill : A) : outcome (img A) :=
  if negb (int_ok (w * h)) then UB
  else if (w * h <? 0)%Z then Throws
  else Ok (Img w h (repeat fill (Z.to_nat (w * h)))).

(* data_[i] for a size_t i: undefined outside the vector *)
Definition elem {A} (im : img A) (i : Z) : outcome A :=
  if ((0 <=? i) && (i <? Z.of_nat (List.length (im_data im))))%Z
  then match nth_error (im_data im) (Z.to_nat i) with Some a => Ok a | None => UB end
  else UB.

(* to_linear, image.ipp:578-581: computed in int, then cast *)
Definition to_linear {A} (im : img A) (x y : Z) : outcome Z :=
  if (int_ok (y * im_w im) && int_ok (y * im_w im + x))%bool then Ok (to_size (y * im_w im + x)) else UB.

(* operator()(x, y), image.ipp:187-208, release build (the assert is compiled out) *)
Definition pix {A} (im : img A) (x y : Z) : outcome A := obind (to_linear im x y) (elem im).
(* at(index), image.ipp:258-280 *)
Definition at_index {A} (im : img A) (i : Z) : outcome A :=
  if (Z.of_nat (List.length (im_data im)) <=? i)%Z then Throws else elem im i.
(* at(x, y), image.ipp:291-314 *)
Definition at_xy {A} (im : img A) (x y : Z) : outcome A :=
  if ((im_w im <=? x) || (im_h im <=? y))%Z then Throws else pix im x y.
(* the store at(x, y) = v and operator()(x, y) = v through the returned reference, image.ipp:187-191, 291-297 *)
Definition set_pix {A} (im : img A) (x y : Z) (v : A) : outcome (img A) :=
  obind (to_linear im x y) (fun i =>
    if ((0 <=? i) && (i <? Z.of_nat (List.length (im_data im))))%Z
    then Ok (Img (im_w im) (im_h im) (upd (im_data im) (Z.to_nat i) v)) else UB).
Definition at_store {A} (im : img A) (x y : Z) (v : A) : outcome (img A) :=
  if ((im_w im <=? x) || (im_h im <=? y))%Z then Throws else set_pix im x y v.

(* floor; static_cast<int> of a float (truncation, undefined when the result is no int); std::round *)
Definition flr (r : R) : Z := (up r - 1)%Z.
Definition truncz (r : R) : Z := if Rleb 0 r then flr r else (- flr (- r))%Z.
Definition roundz (r : R) : Z := if Rleb 0 r then flr (r + / 2) else (- flr (- r + / 2))%Z.
Definition cast_int (z : Z) : outcome Z := if int_ok z then Ok z else UB.

(* at(Pixel), image.ipp:326-355 *)
Definition at_pixel {A} (im : img A) (px py : R) : outcome A :=
  obind (cast_int (truncz px)) (fun x => obind (cast_int (truncz py)) (fun y => at_xy im x y)).

(* wrap_coordinate with max = 1, image.ipp:593-614. fmod(c, 1) = c - trunc(c) is exact in floating point. *)
Inductive wrap_mode := Clamp | Repeat | Mirror.
Definition clamp01 (c : R) : R := if Rltb c 0 then 0 else if Rltb 1 c then 1 else c.
Definition fmod1 (c : R) : R := c - IZR (truncz c).
Definition wrap_coordinate (rnd : R -> R) (m : wrap_mode) (c : R) : outcome R :=
  match m with
  | Clamp => Ok (clamp01 c)
  | Repeat => let f := fmod1 c in Ok (if Rltb f 0 then rnd (f + 1) else f)
  | Mirror => let a := Rabs c in
      obind (cast_int (truncz a)) (fun period =>
        let f := fmod1 a in
        Ok (clamp01 (if (period mod 2 =? 1)%Z then rnd (1 - f) else f)))
  end.

Section Sampling.
Variable rnd : R -> R.
(* u * static_cast<float>(width - 1), image.ipp:381-382, 419-420 *)
Definition texel (u : R) (n : Z) : R := rnd (u * rnd (IZR (n - 1))).

(* sample_nearest_neighbor, image.ipp:372-392; dflt is PixelT{} *)
Definition sample_nearest {A} (m : wrap_mode) (im : img A) (dflt : A) (u v : R) : outcome A :=
  match im_data im with
  | [] => Ok dflt
  | _ :: _ =>
    obind (wrap_coordinate rnd m u) (fun u => obind (wrap_coordinate rnd m v) (fun v =>
    obind (cast_int (roundz (texel u (im_w im)))) (fun x => obind (cast_int (roundz (texel v (im_h im)))) (fun y =>
    pix im (Z.min x (im_w im - 1)) (Z.min y (im_h im - 1))))))
  end.

(* sample_bilinear, image.ipp:410-455, split: the texel coordinates and the four neighbours it reads ... *)
Definition bilinear_taps {A} (m : wrap_mode) (im : img A) (u v : R) : outcome (R * R * (A * A * (A * A))) :=
  obind (wrap_coordinate rnd m u) (fun u => obind (wrap_coordinate rnd m v) (fun v =>
  let px := texel u (im_w im) in let py := texel v (im_h im) in
  obind (cast_int (truncz px)) (fun x0 => obind (cast_int (truncz py)) (fun y0 =>
  let x1 := Z.min (x0 + 1) (im_w im - 1) in let y1 := Z.min (y0 + 1) (im_h im - 1) in
  let fx := rnd (px - rnd (IZR x0)) in let fy := rnd (py - rnd (IZR y0)) in
  obind (pix im x0 y0) (fun p00 => obind (pix im x1 y0) (fun p10 =>
  obind (pix im x0 y1) (fun p01 => obind (pix im x1 y1) (fun p11 =>
  Ok (fx, fy, (p00, p10, (p01, p11))))))))))).
(* ... and the blend, image.ipp:435-453 (float pixels; in exact arithmetic the Vec3 and SpectralBins branches are
   the same formula per channel) *)
Definition blend (fx fy p00 p10 p01 p11 : R) : R :=
  rnd (rnd (rnd (rnd (rnd (p00 * rnd (1 - fx)) * rnd (1 - fy)) + rnd (rnd (p10 * fx) * rnd (1 - fy)))
            + rnd (rnd (p01 * rnd (1 - fx)) * fy)) + rnd (rnd (p11 * fx) * fy)).
Definition sample_bilinear (m : wrap_mode) (im : img R) (u v : R) : outcome R :=
  match im_data im with
  | [] => Ok 0
  | _ :: _ => obind (bilinear_taps m im u v) (fun '(fx, fy, (p00, p10, (p01, p11))) => Ok (blend fx fy p00 p10 p01 p11))
  end.
(* the same for an integer pixel type: the blend is truncated, image.ipp:435-440 *)
Definition sample_bilinear_int (m : wrap_mode) (im : img Z) (u v : R) : outcome Z :=
  match im_data im with
  | [] => Ok 0%Z
  | _ :: _ => obind (bilinear_taps m im u v) (fun '(fx, fy, (p00, p10, (p01, p11))) =>
      Ok (truncz (blend fx fy (rnd (IZR p00)) (rnd (IZR p10)) (rnd (IZR p01)) (rnd (IZR p11)))))
  end.
End Sampling.

(* operator+, image.ipp:535-545, on float pixels *)
Fixpoint zip_add (a b : list R) : list R :=
  match a, b with x :: a, y :: b => x + y :: zip_add a b | _, _ => [] end.
Definition image_add (a b : img R) : outcome (img R) :=
  if negb ((im_w a =? im_w b) && (im_h a =? im_h b))%Z then Throws
  else Ok (Img (im_w a) (im_h a) (zip_add (im_data a) (im_data b))).

(** Convolution. Here an image is its width, height and pixel function (addressing is C40's subject). *)
Record fimg := FI { fw : nat; fh : nat; fp : nat -> nat -> R }.
Fixpoint sumf (n : nat) (f : nat -> R) : R := match n with O => 0 | S k => sumf k f + f k end.

(* convolve_direct_, image.ipp:617-647. A skipped term is the term 0; the order of the additions is not modelled. *)
Definition in_range (n : nat) (z : Z) : bool := ((0 <=? z) && (z <? Z.of_nat n))%Z.
Definition convolve_direct (im k : fimg) : fimg :=
  let kcx := Z.of_nat (fw k / 2) in let kcy := Z.of_nat (fh k / 2) in
  FI (fw im) (fh im) (fun x y =>
    sumf (fh k) (fun ky => sumf (fw k) (fun kx =>
      let sy := (Z.of_nat y + Z.of_nat ky - kcy)%Z in let sx := (Z.of_nat x + Z.of_nat kx - kcx)%Z in
      if (in_range (fh im) sy && in_range (fw im) sx)%bool
      then fp im (Z.to_nat sx) (Z.to_nat sy) * fp k kx ky else 0))).

(* complex numbers as pairs, and FFTW's definition of the unnormalised two-dimensional transforms ("What FFTW really
   computes"); the half-complex storage of r2c/c2r and rounding are not modelled *)
Definition cpx := (R * R)%type.
Definition cmul (a b : cpx) : cpx := (fst a * fst b - snd a * snd b, fst a * snd b + snd a * fst b).
Definition cis (t : R) : cpx := (cos t, sin t).
Definition csumf (n : nat) (f : nat -> cpx) : cpx := (sumf n (fun i => fst (f i)), sumf n (fun i => snd (f i))).
Definition phase (pw ph : nat) (k l i j : nat) : R :=
  2 * PI * (INR k * INR i / INR pw + INR l * INR j / INR ph).
Definition dft2 (pw ph : nat) (a : nat -> nat -> R) (k l : nat) : cpx :=
  csumf ph (fun j => csumf pw (fun i => cmul (a i j, 0) (cis (- phase pw ph k l i j)))).
Definition idft2 (pw ph : nat) (f : nat -> nat -> cpx) (i j : nat) : R :=
  fst (csumf ph (fun l => csumf pw (fun k => cmul (f k l) (cis (phase pw ph k l i j))))).

(* packing of the kernel with wrap-around, image.ipp:708-718: writes in loop order, a later write wins *)
Definition store2 (b : nat -> nat -> R) (i j : nat) (v : R) : nat -> nat -> R :=
  fun i' j' => if ((i' =? i) && (j' =? j))%nat then v else b i' j'.
Fixpoint iter_upto {S : Type} (n : nat) (f : nat -> S -> S) (s : S) : S :=
  match n with O => s | Datatypes.S k => f k (iter_upto k f s) end.
Definition pack_kernel (im k : fimg) : nat -> nat -> R :=
  let pw := (fw im + fw k - 1)%nat in let ph := (fh im + fh k - 1)%nat in
  let kcx := Z.of_nat (fw k / 2) in let kcy := Z.of_nat (fh k / 2) in
  iter_upto (fh k) (fun ky => iter_upto (fw k) (fun kx b =>
    store2 b (Z.to_nat ((Z.of_nat kx - kcx + Z.of_nat pw) mod Z.of_nat pw))
             (Z.to_nat ((Z.of_nat ky - kcy + Z.of_nat ph) mod Z.of_nat ph)) (fp k kx ky))) (fun _ _ => 0).
(* packing of the image, top-left aligned and zero padded, image.ipp:721-726 *)
Definition pack_image (im : fimg) : nat -> nat -> R :=
  iter_upto (fh im) (fun y => iter_upto (fw im) (fun x b => store2 b x y (fp im x y))) (fun _ _ => 0).
(* convolve_fft_, image.ipp:650-757, for one channel *)
Definition convolve_fft (im k : fimg) : fimg :=
  let pw := (fw im + fw k - 1)%nat in let ph := (fh im + fh k - 1)%nat in
  let fb := dft2 pw ph (pack_kernel im k) in
  let fa := dft2 pw ph (pack_image im) in
  let out := idft2 pw ph (fun i j => cmul (fa i j) (fb i j)) in
  FI (fw im) (fh im) (fun x y => out x y * (1 / INR (pw * ph))).
(* convolve, image.ipp:481-508, for a floating-point pixel type *)
Definition convolve (im k : fimg) : fimg :=
  if ((fw k =? 1) && (fh k =? 1))%nat then FI (fw im) (fh im) (fun x y => fp im x y * fp k 0%nat 0%nat)
  else if (fw k * fh k <=? 25)%nat then convolve_direct im k
  else convolve_fft im k.
