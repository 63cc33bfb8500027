(* Model of include/huira/images/color_map.hpp in exact real arithmetic with NaN and infinities (rounding and overflow of finite values are not modelled).
   An image is the list of its pixels. *)
From Verif Require Import Common Vec3 DistortionModel FrustumModel CameraModel.
Import ListNotations.
Open Scope R_scope.

(* a < b on floats: false when one is NaN *)
Definition flt (a b : fl) : bool :=
  match a, b with
  | Fin x, Fin y => Rltb x y
  | NInf, (Fin _ | PInf) => true
  | Fin _, PInf => true
  | _, _ => false
  end.
(* the scan, color_map.hpp:26-40: (min_depth, max_depth) *)
Definition scan1 (s : fl * fl) (d : fl) : fl * fl :=
  if is_inf d then s else (if flt d (fst s) then d else fst s, if flt (snd s) d then d else snd s).
Definition scan (l : list fl) : fl * fl := fold_left scan1 l (PInf, Fin 0).
(* 0.8f * (d - min_depth) / (max_depth - min_depth), color_map.hpp:47. A zero divisor gives 0 / 0 = NaN for d = min_depth, which is the only finite depth
   then; an infinite min_depth (no finite depth in the image) never gets here *)
Definition shade (s : fl * fl) (d : fl) : fl :=
  match d, fst s, snd s with
  | Fin x, Fin lo, Fin hi => if Req_EM_T (hi - lo) 0 then NaN else Fin (8 / 10 * (x - lo) / (hi - lo))
  | _, _, _ => NaN
  end.
(* depth_map, color_map.hpp:23-51: the grey value of each pixel, all three channels alike *)
Definition depth_map (l : list fl) : list fl := map (fun d => if is_inf d then Fin 1 else shade (scan l) d) l.
(* normal_map, color_map.hpp:13-21 *)
Definition normal_map (l : list vec3) : list (R * R * R) :=
  map (fun n => (vx n * (1 / 2) + 1 / 2, vy n * (1 / 2) + 1 / 2, vz n * (1 / 2) + 1 / 2)) l.
(* rgb_to_spectral, color_map.hpp:53-67: the RGB instantiation returns the image, the others convert every pixel *)
Definition rgb_to_spectral {A B} (same : option (A = B)) (f : A -> B) (l : list A) : list B :=
  match same with Some E => eq_rect A list l B E | None => map f l end.
