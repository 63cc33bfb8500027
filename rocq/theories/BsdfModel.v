(* Model of the BSDFs (include/huira_impl/materials/bsdfs/*.ipp) and of the samplers in include/huira/materials/sampling_utils.hpp. Floats are exact reals.
   A spectrum is treated bin by bin by the code; the model computes one bin, whose albedo is p_albedo. *)
From Coq Require Import Reals.
From Verif Require Import Common Vec3 LightModel.
Open Scope R_scope.

(** sampling_utils.hpp *)
Record hemisphere_sample := HS { hs_dir : vec3; hs_pdf : R }.
(* uniform_hemisphere 24-31 *)
Definition uniform_hemisphere (u1 u2 : R) : hemisphere_sample :=
  let z := u1 in let r := sqrt (Rmax 0 (1 - z * z)) in let phi := 2 * PI * u2 in HS (V3 (r * cos phi) (r * sin phi) z) (1 / (2 * PI)).
(* cosine_hemisphere 37-45 *)
Definition cosine_hemisphere (u1 u2 : R) : hemisphere_sample :=
  let r := sqrt u1 in let phi := 2 * PI * u2 in let z := sqrt (Rmax 0 (1 - u1)) in HS (V3 (r * cos phi) (r * sin phi) z) (z * / PI).
(* power_cosine_hemisphere 51-58 *)
Definition power_cosine_hemisphere (u1 u2 n : R) : hemisphere_sample :=
  let z := cpow u1 (1 / (n + 1)) in let r := sqrt (Rmax 0 (1 - z * z)) in let phi := 2 * PI * u2 in
  HS (V3 (r * cos phi) (r * sin phi) z) ((n + 1) / (2 * PI) * (if Req_EM_T n 0 then 1 else cpow z n)).
(* std::cbrt of a non-negative number *)
Definition cbrt (x : R) : R := cpow x (1 / 3).
(* sine_hemisphere 66-76 *)
Definition sine_hemisphere (u1 u2 : R) : hemisphere_sample :=
  let cos_theta := cbrt (1 - u1) in let sin_theta := sqrt (Rmax 0 (1 - cos_theta * cos_theta)) in let phi := 2 * PI * u2 in
  let pdf := 2 * sin_theta / (PI * PI) in
  HS (V3 (sin_theta * cos phi) (sin_theta * sin phi) cos_theta) (Rmax pdf (/ 10 ^ 8)).
(* ggx_sample_half_vector 92-110 *)
Definition ggx_sample_half_vector (u1 u2 roughness : R) : hemisphere_sample :=
  let alpha := roughness * roughness in let alpha2 := alpha * alpha in
  let cos_theta2 := (1 - u1) / (1 + (alpha2 - 1) * u1) in let cos_theta := sqrt cos_theta2 in
  let sin_theta := sqrt (Rmax 0 (1 - cos_theta2)) in let phi := 2 * PI * u2 in
  let denom := cos_theta2 * (alpha2 - 1) + 1 in let D := alpha2 / (PI * denom * denom) in
  HS (V3 (sin_theta * cos phi) (sin_theta * sin phi) cos_theta) (Rmax (D * cos_theta) (/ 10 ^ 8)).
(* ggx_vndf_sample 123-165: only the half vector, the density it reports is not used by the BSDF *)
Definition ggx_vndf_half (wo : vec3) (roughness u1 u2 : R) : vec3 :=
  let alpha := roughness * roughness in
  let Vh := normalize (V3 (alpha * vx wo) (alpha * vy wo) (vz wo)) in
  let len2 := vx Vh * vx Vh + vy Vh * vy Vh in
  let T1 := if Rltb (/ 10 ^ 7) len2 then vscale (/ sqrt len2) (V3 (- vy Vh) (vx Vh) 0) else V3 1 0 0 in
  let T2 := cross Vh T1 in
  let r := sqrt u1 in let phi := 2 * PI * u2 in
  let t1 := r * cos phi in
  let s := 5 / 10 * (1 + vz Vh) in
  let t2 := (1 - s) * sqrt (Rmax 0 (1 - t1 * t1)) + s * (r * sin phi) in
  let Nh := vadd (vadd (vscale t1 T1) (vscale t2 T2)) (vscale (sqrt (Rmax 0 (1 - t1 * t1 - t2 * t2))) Vh) in
  normalize (V3 (alpha * vx Nh) (alpha * vy Nh) (Rmax 0 (vz Nh))).

(* the shading frame of an Interaction: tangent, bitangent, normal_s *)
Record frame := Fr { f_t : vec3; f_b : vec3; f_n : vec3 }.
(* local_to_world 175-181, world_to_local 186-193 *)
Definition local_to_world (d : vec3) (f : frame) : vec3 := vadd (vadd (vscale (vx d) (f_t f)) (vscale (vy d) (f_b f))) (vscale (vz d) (f_n f)).
Definition world_to_local (d : vec3) (f : frame) : vec3 := V3 (dot d (f_t f)) (dot d (f_b f)) (dot d (f_n f)).

(* ShadingParams *)
Record params := Pa { p_albedo : R; p_roughness : R; p_metallic : R }.
Inductive bsdf := Lambertian | LommelSeeliger | McEwen | OrenNayar | Hapke (h B0 b c : R) | CookTorrance | NullBSDF.
Record bsdf_sample := BS { s_wi : vec3; s_value : R; s_pdf : R; s_delta : bool }.
Definition clamp (x lo hi : R) : R := if Rltb x lo then lo else if Rltb hi x then hi else x.

(** Hapke helpers, hapke_bsdf.ipp *)
(* phase_function_dhg 21-32 *)
Definition hg (g cos_a : R) : R := let g2 := g * g in let denom := 1 + g2 - 2 * g * cos_a in (1 - g2) / cpow denom (3 / 2).
Definition phase_function_dhg (b c cos_alpha : R) : R := (1 - c) * hg (- b) cos_alpha + c * hg b cos_alpha.
(* opposition_effect 34-43 *)
Definition opposition_effect (h B0 tan_half_alpha : R) : R := if Rleb h 0 then 0 else B0 / (1 + tan_half_alpha / h).
(* h_function 45-53 *)
Definition h_function (mu omega : R) : R := let gamma := sqrt (1 - omega) in (1 + 2 * mu) / (1 + gamma * (2 * mu)).

(** Cook-Torrance helpers, cook_torrance_bsdf.ipp *)
(* ggx_D 170-176, smith_G1 178-184, smith_G2 186-190, schlick_fresnel 192-200 *)
Definition ggx_D (n_dot_h alpha2 : R) : R := let cos2 := n_dot_h * n_dot_h in let denom := cos2 * (alpha2 - 1) + 1 in alpha2 / (PI * denom * denom).
Definition smith_G1 (n_dot_v alpha2 : R) : R :=
  let cos2 := n_dot_v * n_dot_v in let tan2 := (1 - cos2) / Rmax cos2 (/ 10 ^ 8) in 2 / (1 + sqrt (1 + alpha2 * tan2)).
Definition smith_G2 (n_dot_wo n_dot_wi alpha2 : R) : R := smith_G1 n_dot_wo alpha2 * smith_G1 n_dot_wi alpha2.
Definition schlick_fresnel (cos_theta f0 : R) : R := let t := 1 - cos_theta in let t2 := t * t in let t5 := t2 * t2 * t in f0 + (1 - f0) * t5.
Definition min_roughness : R := 1 / 100.
(* eval 19-55 *)
Definition eval_ct (wo wi n : vec3) (p : params) : R :=
  let n_dot_wo := dot n wo in let n_dot_wi := dot n wi in
  if Rleb n_dot_wo 0 || Rleb n_dot_wi 0 then 0 else
  let roughness := clamp (p_roughness p) min_roughness 1 in
  let metallic := clamp (p_metallic p) 0 1 in
  let alpha := roughness * roughness in let alpha2 := alpha * alpha in
  let f0 := p_albedo p * metallic + 4 / 100 * (1 - metallic) in
  let diffuse := p_albedo p * ((1 - metallic) * / PI) in
  let h := normalize (vadd wo wi) in
  let n_dot_h := Rmax (dot n h) 0 in
  let wo_dot_h := Rmax (dot wo h) 0 in
  let D := ggx_D n_dot_h alpha2 in
  let G := smith_G2 n_dot_wo n_dot_wi alpha2 in
  let F := schlick_fresnel wo_dot_h f0 in
  diffuse + F * (D * G / (4 * n_dot_wo * n_dot_wi)).
(* pdf 134-168 *)
Definition pdf_ct (wo wi n : vec3) (p : params) : R :=
  let n_dot_wo := dot n wo in let n_dot_wi := dot n wi in
  if Rleb n_dot_wo 0 || Rleb n_dot_wi 0 then 0 else
  let roughness := clamp (p_roughness p) min_roughness 1 in
  let metallic := clamp (p_metallic p) 0 1 in
  let alpha := roughness * roughness in let alpha2 := alpha * alpha in
  let h := normalize (vadd wo wi) in
  let n_dot_h := Rmax (dot n h) 0 in
  let spec_pdf := ggx_D n_dot_h alpha2 * smith_G1 n_dot_wo alpha2 / (4 * n_dot_wo) in
  let diff_pdf := n_dot_wi * / PI in
  let spec_weight := 5 / 10 * (1 + metallic) in
  spec_weight * spec_pdf + (1 - spec_weight) * diff_pdf.
(* glm::reflect(I, N) = I - 2 dot(N, I) N *)
Definition reflect (i n : vec3) : vec3 := vsub i (vscale (2 * dot n i) n).
(* sample 57-132; the default-constructed wi of the early returns is the zero vector *)
Definition sample_ct (wo : vec3) (f : frame) (p : params) (u1 u2 : R) : bsdf_sample :=
  let n := f_n f in
  let none wi := BS wi 0 0 false in
  if Rleb (dot n wo) 0 then none vzero else
  let metallic := clamp (p_metallic p) 0 1 in
  let roughness := clamp (p_roughness p) min_roughness 1 in
  let spec_weight := 5 / 10 * (1 + metallic) in
  let finish wi :=
    let n_dot_wi := dot n wi in
    if Rleb n_dot_wi 0 then none wi else
    let f' := eval_ct wo wi n p in let q := pdf_ct wo wi n p in
    if Rleb q 0 then none wi else BS wi (f' * (n_dot_wi / q)) q false in
  if Rltb u1 spec_weight then
    let wo_local := world_to_local wo f in
    let h := ggx_vndf_half wo_local roughness (u1 / spec_weight) u2 in
    let wi_local := reflect (vscale (-1) wo_local) h in
    if Rleb (vz wi_local) 0 then none vzero else finish (local_to_world wi_local f)
  else finish (local_to_world (hs_dir (cosine_hemisphere ((u1 - spec_weight) / (1 - spec_weight)) u2)) f).

(** eval of every BSDF *)
Definition cos_alpha_of (wo wi : vec3) : R := clamp (dot wi wo) (-1) 1.
Definition eval (k : bsdf) (wo wi n : vec3) (p : params) : R :=
  let cos_i := dot wi n in let cos_o := dot wo n in
  match k with
  | Lambertian => (* lambertian_bsdf.ipp:16-29 *) if Rleb cos_i 0 then 0 else p_albedo p * / PI
  | LommelSeeliger => (* lommel_seeliger_bsdf.ipp:18-32 *) if Rleb cos_i 0 || Rleb cos_o 0 then 0 else p_albedo p / (4 * PI * (cos_i + cos_o))
  | McEwen => (* mcewen_bsdf.ipp:19-45 *) if Rleb cos_i 0 || Rleb cos_o 0 then 0 else
      let alpha := acos (cos_alpha_of wo wi) in
      let inv_alpha0 := 3 * / PI in
      let beta := exp (- alpha * inv_alpha0) in
      p_albedo p * ((1 - beta) * / PI + beta * (1 / (4 * PI * (cos_i + cos_o))))
  | OrenNayar => (* oren_nayar_bsdf.ipp:19-50 *) if Rleb cos_i 0 || Rleb cos_o 0 then 0 else
      let sigma := p_roughness p * (PI / 2) in let sigma2 := sigma * sigma in
      let A := 1 - 5 / 10 * (sigma2 / (sigma2 + 33 / 100)) in
      let B := 45 / 100 * (sigma2 / (sigma2 + 9 / 100)) in
      let d := dot wi wo - cos_i * cos_o in let max_cos := Rmax cos_i cos_o in
      let term := if Rltb 0 d && Rltb (/ 10 ^ 6) max_cos then d / max_cos else 0 in
      p_albedo p * / PI * (A + B * term)
  | Hapke h B0 b c => (* hapke_bsdf.ipp:55-93 *) if Rleb cos_i 0 || Rleb cos_o 0 then 0 else
      let omega := p_albedo p in
      let ca := cos_alpha_of wo wi in
      let tan_half_alpha := tan (acos ca * (5 / 10)) in
      let P := phase_function_dhg b c ca in
      let B := opposition_effect h B0 tan_half_alpha in
      omega / (4 * PI * (cos_i + cos_o)) * ((1 + B) * P - 1 + h_function cos_i omega * h_function cos_o omega)
  | CookTorrance => eval_ct wo wi n p
  | NullBSDF => (* null_bsdf.ipp:12-23 *) 0
  end.
(* pdf of every BSDF: lambertian 61-76, lommel_seeliger 64-80, mcewen 77-93, oren_nayar 84-101, hapke 127-144, null 47-58 *)
Definition pdf (k : bsdf) (wo wi n : vec3) (p : params) : R :=
  let cos_i := dot wi n in let cos_o := dot wo n in
  match k with
  | Lambertian => if Rleb cos_i 0 then 0 else cos_i * / PI
  | CookTorrance => pdf_ct wo wi n p
  | NullBSDF => 0
  | _ => if Rleb cos_i 0 || Rleb cos_o 0 then 0 else cos_i * / PI
  end.
(* sample of every BSDF: lambertian 31-59, lommel_seeliger 34-62, mcewen 47-75, oren_nayar 52-82, hapke 95-125, null 25-45 *)
Definition sample (k : bsdf) (wo : vec3) (f : frame) (p : params) (u1 u2 : R) : bsdf_sample :=
  let hs := cosine_hemisphere u1 u2 in
  let wi := local_to_world (hs_dir hs) f in
  let cos_i := dot wi (f_n f) in let cos_o := dot wo (f_n f) in
  match k with
  | Lambertian => if Rleb cos_i 0 then BS wi 0 0 false else BS wi (p_albedo p) (hs_pdf hs) false
  | LommelSeeliger => if Rleb cos_i 0 || Rleb cos_o 0 then BS wi 0 0 false else BS wi (p_albedo p / (4 * (cos_i + cos_o))) (hs_pdf hs) false
  | CookTorrance => sample_ct wo f p u1 u2
  | NullBSDF => BS (vscale (-1) wo) 1 1 true
  | _ => if Rleb cos_i 0 || Rleb cos_o 0 then BS wi 0 0 false else BS wi (eval k wo wi (f_n f) p * PI) (hs_pdf hs) false
  end.
