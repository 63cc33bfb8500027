(* Specification vocabulary for tiled rendering. *)
From Verif Require Import Vec3 TilesModel.
Open Scope Z_scope.

Definition inside (w h : Z) (p : Z * Z) : Prop := 0 <= fst p < w /\ 0 <= snd p < h.

Fixpoint sumR (l : list R) : R := match l with [] => 0%R | x :: r => (x + sumR r)%R end.

(* the light that one sample puts on pixel (x, y) through its kernel, cut at its effective radius; Rs is the radius
   of the full kernel, whose centre is (Rs, Rs) *)
Definition stamp_at (Rs : Z) (it : pitem) (x y : Z) : R :=
  if (Z.abs (x - fx it) <=? er it) && (Z.abs (y - fy it) <=? er it)
  then (pw it * kern it (x - fx it + Rs) (y - fy it + Rs))%R else 0%R.
Definition stamped_image (Rs : Z) (items : list pitem) (x y : Z) : R := sumR (map (fun it => stamp_at Rs it x y) items).

(* the samples in front of which no geometry was seen at their pixel; no depth channel: all of them *)
Definition unhidden (w : Z) (depth : option (Z -> bool)) (it : pitem) : bool :=
  match depth with None => true | Some isinf => isinf (fy it * w + fx it) end.

(* the light that one point-like sample puts on pixel (x, y): all of it on its nearest pixel *)
Definition point_at (it : pitem) (x y : Z) : R :=
  if (x =? rx it) && (y =? ry it) then pw it else 0%R.
Definition point_image (items : list pitem) (x y : Z) : R := sumR (map (fun it => point_at it x y) items).

(* the floor of a position in the closed image rectangle *)
Definition on_image (w h : Z) (it : pitem) : Prop := 0 <= fx it <= w /\ 0 <= fy it <= h.
(* strictly inside the image *)
Definition in_image (w h : Z) (it : pitem) : Prop := 0 <= fx it < w /\ 0 <= fy it < h.
(* the nearest pixel is the floor or the next one *)
Definition rounded (it : pitem) : Prop := (rx it = fx it \/ rx it = fx it + 1) /\ (ry it = fy it \/ ry it = fy it + 1).

(* a sample at real position (px, py) *)
Definition sample_at (px py power : R) : pitem :=
  {| fx := Int_part px; fy := Int_part py; rx := Int_part (px + 1 / 2); ry := Int_part (py + 1 / 2);
     pw := power; kern := fun _ _ => 0%R; er := 0 |}.
