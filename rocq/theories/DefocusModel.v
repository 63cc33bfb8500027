(* Model of the defocus kernels of an aperture (include/huira_impl/cameras/apertures/aperture.ipp, circular_aperture.ipp) in exact real
   arithmetic: float rounding, overflow of the conversion to int and NaN arguments are not modelled. *)
From Verif Require Import Vec3 PsfModel.
Open Scope R_scope.

(* std::ceil converted to int *)
Definition ceil (x : R) : Z := (- Int_part (- x))%Z.
Definition clampR (x lo hi : R) : R := if Rltb x lo then lo else if Rltb hi x then hi else x.

(* the radius of the blur spot in pixels, aperture.ipp:14-23. [r_ap] is get_bounding_radius(), circular_aperture.ipp:113-117 *)
Definition blur_radius (defocus f r_ap px py : R) : R := Rabs defocus * f * r_ap / Rmin px py.

(* PolyphaseCache, aperture.hpp:51-60. The list of kernels is given by its parameters: kernels_built says whether it is non-empty *)
Record cache := { c_radius : R; c_half : Z; c_banks : Z; c_dim : Z; c_built : bool }.
Definition cache0 : cache := {| c_radius := 0; c_half := 0; c_banks := 0; c_dim := 0; c_built := false |}.
(* has_defocus, aperture.hpp:47 *)
Definition has_defocus (c : cache) : bool := Rltb 0 (c_radius c).
(* build_defocus_kernel, aperture.ipp:8-38. The early return leaves half_extent as it was *)
Definition build (old : cache) (defocus f r_ap px py : R) (banks : Z) : cache :=
  let r := blur_radius defocus f r_ap px py in
  if Rltb r (1 / 2) then {| c_radius := 0; c_half := c_half old; c_banks := 0; c_dim := 0; c_built := false |}
  else let h := Z.max 1 (ceil r) in
       {| c_radius := r; c_half := h; c_banks := banks; c_dim := (2 * h + 1)%Z; c_built := negb (banks * banks =? 0)%Z |}.

(* rasterize_kernel_, circular_aperture.ipp:119-143: pixel (x, y) of a kernel of width dim *)
Definition coverage (radius : R) (d : Z) (ox oy : R) (x y : Z) : R :=
  let cx := IZR (d / 2) + 1 / 2 + ox in
  let cy := IZR (d / 2) + 1 / 2 + oy in
  let dx := IZR x + 1 / 2 - cx in
  let dy := IZR y + 1 / 2 - cy in
  clampR (radius - sqrt (dx * dx + dy * dy) + 1 / 2) 0 1.
(* generate_polyphase_data_, aperture.ipp:60-93: the pixels of a kernel in loop order, their sum, and the normalised kernel of bank (i, j) *)
Definition window (d : Z) : list (Z * Z) := flat_map (fun y => map (fun x => (x, y)) (zlist 0 d)) (zlist 0 d).
Definition raw_sum (radius : R) (d : Z) (ox oy : R) : R := fold_left (fun s p => s + coverage radius d ox oy (fst p) (snd p)) (window d) 0.
Definition offset (banks i : Z) : R := IZR i / IZR banks.
Definition bank_kernel (c : cache) (i j x y : Z) : R :=
  let ox := offset (c_banks c) i in let oy := offset (c_banks c) j in
  coverage (c_radius c) (c_dim c) ox oy x y * (1 / raw_sum (c_radius c) (c_dim c) ox oy).
(* get_defocus_kernel, aperture.ipp:41-57: the kernel for the sub-pixel position (u, v); std::clamp with an empty range and an index outside the list are UB *)
Definition get_defocus_kernel (c : cache) (u v : R) : outcome (Z -> Z -> R) :=
  if negb (c_built c) then Throws else
  if (c_banks c <? 1)%Z then UB else
  let bx := bank_of (c_banks c) u in
  let b := bank_of (c_banks c) v in
  let idx := (b * c_banks c + bx)%Z in
  if ((0 <=? idx) && (idx <? c_banks c * c_banks c))%Z then Ok (bank_kernel c (idx mod c_banks c) (idx / c_banks c)) else UB.
