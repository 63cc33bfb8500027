(* Model of the sRGB transfer functions, include/huira/images/io/color_space.hpp, with exact real arithmetic. *)
From Verif Require Import Common Vec3.
Open Scope R_scope.

(* srgb_to_linear(float), color_space.hpp:8-14. std::pow of a positive base is Rpower *)
Definition srgb_to_linear (s : R) : R := if Rleb s (4045 / 100000) then s / (1292 / 100) else Rpower ((s + 55 / 1000) / (1055 / 1000)) (24 / 10).
(* linear_to_srgb(float), 22-28 *)
Definition linear_to_srgb (l : R) : R := if Rleb l (31308 / 10000000) then l * (1292 / 100) else 1055 / 1000 * Rpower l (1 / (24 / 10)) - 55 / 1000.
(* gamma_to_linear, 17-20, for a positive value *)
Definition gamma_to_linear (encoded gamma : R) : R := Rpower encoded gamma.
(* the image overloads, 30-88: one call per channel of every pixel; a pixel is the list of its channels *)
Definition image_to_srgb (img : list (list R)) : list (list R) := map (map linear_to_srgb) img.
Definition image_to_linear (img : list (list R)) : list (list R) := map (map srgb_to_linear) img.
