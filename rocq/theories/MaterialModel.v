(* Model of Material (include/huira/materials/material.hpp, include/huira_impl/materials/material.ipp): its setters as a state machine and the texture
   part of evaluate. One spectral bin at a time, as in BsdfModel; comparisons of whole spectra (== TSpectral{0}) then act on that bin: exact for
   spectra with equal bins. An image is a handle: an identity, for the pointer comparison of has_alpha_texture, and what sample_bilinear returns. The
   normal map and the shading frame are in SurfaceModel. *)
From Coq Require Import Reals.
From Verif Require Import Common Vec3 LightModel BsdfModel.
Open Scope R_scope.

Record texture := Tex { t_id : nat; t_sample : R -> R -> R }.
(* the 1x1 images of ones made by Scene, scene.ipp:51-57 *)
Definition default_image : texture := Tex 0 (fun _ _ => 1).
(* BSDFRequirements, bsdf.hpp; needs_normal is in SurfaceModel *)
Record requirements := Req { needs_albedo : bool; needs_metallic : bool; needs_roughness : bool }.
(* requirements() of each BSDF: lambertian 6-14, lommel_seeliger 8-16, mcewen 9-17, oren_nayar 9-17, hapke 10-18, cook_torrance 9-17, null 6-9 *)
Definition bsdf_requirements (b : bsdf) : requirements :=
  match b with
  | Lambertian => Req true false false
  | LommelSeeliger => Req true false false
  | McEwen => Req true false false
  | OrenNayar => Req true false true
  | Hapke _ _ _ _ => Req true false false
  | CookTorrance => Req true true true
  | NullBSDF => Req false false false
  end.
(* image and factor of each parameter; the data members, material.hpp:111-158 *)
Inductive slot := Albedo | Alpha | Metallic | Roughness | Transmission | Emissive.
Definition slot_eqb (a b : slot) : bool :=
  match a, b with Albedo, Albedo | Alpha, Alpha | Metallic, Metallic | Roughness, Roughness | Transmission, Transmission | Emissive, Emissive => true | _, _ => false end.
Record material := Mat { m_image : slot -> texture; m_factor : slot -> R; m_has_alpha : bool; m_bsdf : bsdf; m_reqs : requirements }.
Definition put {A} (f : slot -> A) (s : slot) (a : A) : slot -> A := fun t => if slot_eqb s t then a else f t.
(* initialisers of the factors, material.hpp:150-157 *)
Definition default_factor (s : slot) : R := match s with Metallic | Transmission | Emissive => 0 | _ => 1 end.
(* the constructor, material.ipp:252-276 *)
Definition new_material (b : bsdf) : material := Mat (fun _ => default_image) default_factor false b (bsdf_requirements b).

(* set_bsdf 92-103 *)
Definition set_bsdf (b : bsdf) (m : material) : material := Mat (m_image m) (m_factor m) (m_has_alpha m) b (bsdf_requirements b).
(* set_albedo 106, set_alpha 125-129, set_metallic_image 148-154, set_roughness_image 169, set_transmission_image 206-213, set_emissive_image 228-234 *)
Definition set_image (s : slot) (i : texture) (m : material) : material :=
  match s with
  | Alpha => Mat (put (m_image m) Alpha i) (m_factor m) true (m_bsdf m) (m_reqs m)
  | Metallic | Transmission | Emissive =>
      Mat (put (m_image m) s i) (if Req_EM_T (m_factor m s) 0 then put (m_factor m) s 1 else m_factor m) (m_has_alpha m) (m_bsdf m) (m_reqs m)
  | Albedo | Roughness => Mat (put (m_image m) s i) (m_factor m) (m_has_alpha m) (m_bsdf m) (m_reqs m)
  end.
(* set_albedo_factor 112, set_alpha_factor 132-138, set_metallic_factor 157, set_roughness_factor 175, set_transmission_factor 216, set_emissive_factor 237 *)
Definition set_factor (s : slot) (f : R) (m : material) : material :=
  match s with
  | Alpha => Mat (m_image m) (put (m_factor m) Alpha f) (if Rltb f 1 then true else m_has_alpha m) (m_bsdf m) (m_reqs m)
  | _ => Mat (m_image m) (put (m_factor m) s f) (m_has_alpha m) (m_bsdf m) (m_reqs m)
  end.
(* reset_albedo 118-122, reset_alpha 141-146, reset_metallic 163-167, reset_roughness 181-185, reset_transmission 222-226, reset_emissive 243-247 *)
Definition reset (s : slot) (m : material) : material :=
  match s with
  | Alpha => Mat (put (m_image m) Alpha default_image) (put (m_factor m) Alpha 1) false (m_bsdf m) (m_reqs m)
  | Metallic | Transmission | Emissive => Mat (put (m_image m) s default_image) (put (m_factor m) s 0) (m_has_alpha m) (m_bsdf m) (m_reqs m)
  | Albedo | Roughness => Mat (put (m_image m) s default_image) (put (m_factor m) s 1) (m_has_alpha m) (m_bsdf m) (m_reqs m)
  end.
(* has_alpha_texture, material.hpp:123 *)
Definition has_alpha_texture (m : material) : bool := negb (Nat.eqb (t_id (m_image m Alpha)) (t_id default_image)).

Inductive edit := SetBsdf (b : bsdf) | SetImage (s : slot) (i : texture) | SetFactor (s : slot) (f : R) | Reset (s : slot).
Definition apply_edit (m : material) (e : edit) : material :=
  match e with SetBsdf b => set_bsdf b m | SetImage s i => set_image s i m | SetFactor s f => set_factor s f m | Reset s => reset s m end.
Definition edits (l : list edit) (m : material) : material := fold_left apply_edit l m.

(* evaluate, material.ipp:13-37; ShadingParams' defaults, shading_params.hpp:20-37. Returns albedo, roughness and metallic, then opacity,
   transmission and emission *)
Definition evaluate (m : material) (u v vertex_albedo : R) : params * (R * R * R) :=
  let at_uv s := t_sample (m_image m s) u v * m_factor m s in
  (Pa (if needs_albedo (m_reqs m) then at_uv Albedo * vertex_albedo else 1)
      (if needs_roughness (m_reqs m) then at_uv Roughness else 5 / 10)
      (if needs_metallic (m_reqs m) then at_uv Metallic else 0),
   (at_uv Alpha, at_uv Transmission, at_uv Emissive)).
