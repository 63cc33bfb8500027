(* Models of include/huira_impl/cameras/psfs/psf.ipp (polyphase kernels of a point spread function), include/huira_impl/render/psf_lut.ipp
   (radius table) and the part of include/huira_impl/render/renderer.ipp that assigns the radii, in exact real arithmetic.
   The PSF code works channel by channel: kernels are modelled for one spectral channel, the radius table for all of them. *)
From Verif Require Import Vec3.
Open Scope R_scope.

(* zlist a b: a, a+1, ..., b-1, the values of a counting loop *)
Definition zlist (a b : Z) : list Z := map (fun k => (a + Z.of_nat k)%Z) (seq 0 (Z.to_nat (b - a))).
(* a sum accumulated in a loop; None: one of the terms was undefined *)
Definition osum (l : list (option R)) : option R := fold_left (fun acc x => match acc, x with Some a, Some b => Some (a + b) | _, _ => None end) l (Some 0).
(* static_cast<int>: truncation toward zero *)
Definition trunc (x : R) : Z := if Rleb 0 x then Int_part x else (- Int_part (- x))%Z.
Definition clampz (x lo hi : Z) : Z := if (x <? lo)%Z then lo else if (hi <? x)%Z then hi else x.

(** psf.ipp *)
(* build_polyphase_cache, 22-37: dim *)
Definition dim (radius : Z) : Z := (2 * radius + 1)%Z.
(* get_kernel, 47-62: the index into the banks * banks kernels. Undefined when clamp gets an empty range (banks < 1 with a non-empty cache) *)
Definition bank_of (banks : Z) (u : R) : Z := clampz (trunc (u * IZR banks)) 0 (banks - 1).
Definition get_kernel_index (banks : Z) (u v : R) : outcome Z :=
  if (banks * banks =? 0)%Z then Throws else if (banks <? 1)%Z then UB else
  let i := (bank_of banks v * banks + bank_of banks u)%Z in if ((0 <=? i) && (i <? banks * banks))%Z then Ok i else UB.
(* generate_polyphase_data_, 71-78: resolution of the table of PSF values *)
Definition lut_res (radius : Z) : Z := Z.max 2048 (dim radius * 64).
Definition max_radius (radius : Z) : R := IZR radius + 1.
(* the position of table column or row i, 84-93 *)
Definition grid (radius i : Z) : R := (IZR i * (1 / IZR (lut_res radius - 1)) * 2 - 1) * max_radius radius.
(* lut_data[idx], 95-99; None: out of range. [ev] is evaluate(x, y) *)
Definition lut_at (ev : R -> R -> R) (radius idx : Z) : option R :=
  let res := lut_res radius in
  if ((0 <=? idx) && (idx <? res * res))%Z then Some (ev (grid radius (idx mod res)) (grid radius (idx / res))) else None.
(* sample_lut, 105-143 *)
Definition lut_coord (radius : Z) (u : R) : R := (u / max_radius radius + 1) * (1 / 2) * IZR (lut_res radius - 1).
Definition sample_lut (ev : R -> R -> R) (radius : Z) (u v : R) : option R :=
  let res := lut_res radius in let x_f := lut_coord radius u in let y_f := lut_coord radius v in
  if (Rltb x_f 0 || Rleb (IZR (res - 1)) x_f || Rltb y_f 0 || Rleb (IZR (res - 1)) y_f)%bool then Some 0 else
  let x0 := trunc x_f in let y0 := trunc y_f in
  if (if Req_EM_T x_f (IZR x0) then if Req_EM_T y_f (IZR y0) then true else false else false) then lut_at ev radius (y0 * res + x0)%Z else
  let dx := x_f - IZR x0 in let dy := y_f - IZR y0 in
  match lut_at ev radius (y0 * res + x0)%Z, lut_at ev radius (y0 * res + (x0 + 1))%Z, lut_at ev radius ((y0 + 1) * res + x0)%Z, lut_at ev radius ((y0 + 1) * res + (x0 + 1))%Z with
  | Some c00, Some c10, Some c01, Some c11 => Some ((c00 * (1 - dx) + c10 * dx) * (1 - dy) + (c01 * (1 - dx) + c11 * dx) * dy)
  | _, _, _, _ => None
  end.
(* the sample positions inside a pixel, 171-180 *)
Definition sub (s : Z) : R := (IZR s + 1 / 2) * (1 / 16) - 1 / 2.
Definition sample_pos (radius banks b x s : Z) : R := IZR (x - radius) - IZR b / IZR banks + sub s.
(* integrated_val, 166-186, before normalisation *)
Definition raw_kernel (ev : R -> R -> R) (radius banks bx by' x y : Z) : option R :=
  match osum (flat_map (fun sy => map (fun sx => sample_lut ev radius (sample_pos radius banks bx x sx) (sample_pos radius banks by' y sy)) (zlist 0 16)) (zlist 0 16)) with
  | Some t => Some (t * (1 / 256))
  | None => None
  end.
(* total_energy, 160, 188 *)
Definition pixels (radius : Z) : list (Z * Z) := flat_map (fun y => map (fun x => (x, y)) (zlist 0 (dim radius))) (zlist 0 (dim radius)).
Definition total_energy (ev : R -> R -> R) (radius banks bx by' : Z) : option R := osum (map (fun p => raw_kernel ev radius banks bx by' (fst p) (snd p)) (pixels radius)).
(* normalize_kernel_, 207-224. The loop scales kernel(y, x) for all x, y below dim; as the kernel is square that is every pixel once. 1e-9f is 10^-9. *)
Definition energy_scale (e : R) : R := if Rltb (/ 10 ^ 9) e then 1 / e else 0.
Definition kernel (ev : R -> R -> R) (radius banks bx by' x y : Z) : option R :=
  match raw_kernel ev radius banks bx by' x y, total_energy ev radius banks bx by' with
  | Some r, Some e => Some (r * energy_scale e)
  | _, _ => None
  end.

(** psf_lut.ipp *)
(* conversion, 61-66 *)
Definition conversion (area : R) (energies : list R) : list R := map (fun e => if Rltb 0 e then area / e else 0) energies.
(* scan_pixel, 69-78. The kernel k maps (x, y) to its channels and is kw by kh *)
Definition scan_pixel (k : Z -> Z -> list R) (kw kh : Z) (conv : list R) (ms : R) (p : Z * Z) : R :=
  if ((kw <=? fst p) || (kh <=? snd p))%Z%bool then ms else
  fold_left (fun m wc => Rmax m (fst wc * snd wc)) (combine (k (fst p) (snd p)) conv) ms.
(* the pixels of ring r, 83-97 *)
Definition ring_pixels (full r : Z) : list (Z * Z) :=
  let lo := (full - r)%Z in let hi := (full + r)%Z in
  flat_map (fun kx => [(kx, lo); (kx, hi)]) (zlist lo (hi + 1)) ++ flat_map (fun ky => [(lo, ky); (hi, ky)]) (zlist (lo + 1) hi).
Definition ring_sensitivity (k : Z -> Z -> list R) (kw kh : Z) (conv : list R) (full r : Z) : R := fold_left (scan_pixel k kw kh conv) (ring_pixels full r) 0.
(* build_radius_lut, 46-109 *)
Definition build_radius_lut (k : Z -> Z -> list R) (kw kh full : Z) (area : R) (energies : list R) (threshold : R) : list (Z * R) :=
  if (full <=? 0)%Z then [] else
  flat_map (fun r => let s := ring_sensitivity k kw kh (conversion area energies) full r in if Rltb 0 s then [(r, threshold / s)] else []) (zlist 1 (full + 1)).
(* lookup_effective_radius, 123-139 *)
Definition lookup_effective_radius (lut : list (Z * R)) (max_irradiance : R) (min_radius : Z) : Z :=
  match find (fun e => Rleb (snd e) max_irradiance) (rev lut) with Some e => Z.max (fst e) min_radius | None => min_radius end.

(** renderer.ipp *)
(* TSpectral::max over a non-empty list of channels, spectral_bins.ipp: std::max_element *)
Definition channel_max (v : list R) : R := match v with [] => 0 | x :: t => fold_left (fun m y => if Rltb m y then y else m) t x end.
(* RenderItem::max_irradiance, 614-621; one list of channels per time sample *)
Definition max_irradiance (irr : list (list R)) : R := fold_left (fun m v => Rmax m (channel_max v)) irr 0.
(* the radius assignment, 704-724; RadiusLUTConfig, psf_lut.ipp:13-16: photon_threshold 0.1, min_radius 1 *)
Definition photon_threshold : R := 1 / 10.
Definition assign_radius (use_psf_direct : bool) (center : Z -> Z -> list R) (kw kh stamp_radius : Z) (area : R) (energies : list R) (irr : list (list R)) : Z :=
  if (use_psf_direct && (1 <? stamp_radius)%Z)%bool then lookup_effective_radius (build_radius_lut center kw kh stamp_radius area energies photon_threshold) (max_irradiance irr) 1 else stamp_radius.
