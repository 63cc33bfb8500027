(* Model of the texture part of ModelLoader (include/huira_impl/assets/io/model_loader.ipp:366-901): process_materials_ and load_material_texture_.
   What ASSIMP and the image readers deliver is a function of the path (the files do not change during one load); the readers are modelled in
   DecodeModel, TiffModel and PngModel. Loops over all pixels of an image are maps over its data (addressing is in ImageModel). Exact reals.
   Texture handles are positions in the scene's list of textures of that pixel type; the registry names are left out (RegistryModel: equal names are made
   unique, so add never fails). Material factors are left out here: MaterialModel. *)
From Verif Require Import Common Vec3 ImageModel SrgbModel SurfaceModel.
Open Scope R_scope.

(* ColorSpaceHint and ImageBundle, include/huira/images/image.hpp:140-175; a reader without alpha leaves an image of width 0: None *)
Inductive hint := HLinear | HsRGB | HGamma | HUnknown.
Record bundle := Bundle { b_image : img vec3; b_alpha : option (img R); b_hint : hint; b_gamma : R }.
(* read_image_hdr, include/huira_impl/images/io/hdr_io.ipp:292-310: ImageBundle(image), whose hint is sRGB (image.hpp:169-172) *)
Definition hdr_bundle (im : img vec3) : bundle := Bundle im None HsRGB 1.
(* what a texture path stands for: nothing found; an embedded file with its format hint recognised or not and the result of its reader (None: it throws);
   embedded texels r, g, b, a of 8 bits; a file on disk *)
Inductive source := Missing | Compressed (known : bool) (b : option bundle) | RawTexels (w h : Z) (t : list (Z * Z * Z * Z)) | OnDisk (b : option bundle).

Definition map_img {A B} (f : A -> B) (im : img A) : img B := Img (im_w im) (im_h im) (map f (im_data im)).
Definition per_channel (f : R -> R) (p : vec3) : vec3 := V3 (f (vx p)) (f (vy p)) (f (vz p)).
(* convert_embedded_raw_, 608-649: the texel scaled by 1/255 *)
Definition texel_rgb (t : Z * Z * Z * Z) : vec3 := let '(r, g, b, _) := t in V3 (IZR r * (1 / 255)) (IZR g * (1 / 255)) (IZR b * (1 / 255)).
Definition texel_alpha (t : Z * Z * Z * Z) : R := let '(_, _, _, a) := t in IZR a * (1 / 255).
(* Scene::add_normal_texture, include/huira_impl/scene/scene.ipp:969-976 *)
Definition decode_normal (p : vec3) : option vec3 := onorm (vsub (vscale 2 p) (V3 1 1 1)).

Section Loader.
Context {Sp : Type} (conv : vec3 -> Sp) (files : string -> source).

(* LoadContext: the scene's textures and the caches by path, include/huira/assets/io/model_loader.hpp. The keys of mono_texture_cache are the strings
   path + "_alpha", "split_rough_" + id, "split_metal_" + id: never equal to one another (the first ends in a letter, the others in a digit). *)
Inductive mono_key := KAlpha (path : string) | KRough (id : nat) | KMetal (id : nat).
Definition mono_key_eqb (a b : mono_key) : bool :=
  match a, b with KAlpha p, KAlpha q => String.eqb p q | KRough i, KRough j => Nat.eqb i j | KMetal i, KMetal j => Nat.eqb i j | _, _ => false end.
Record ctx := Ctx { c_sp : list (img Sp); c_mono : list (img R); c_v3 : list (img (option vec3));
  k_sp : string -> option nat; k_v3 : string -> option nat; k_mono : mono_key -> option nat }.
(* an unordered_map: emplace does not overwrite *)
Definition emplace {K} (eqb : K -> K -> bool) (m : K -> option nat) (k : K) (v : nat) : K -> option nat :=
  fun q => if eqb k q then match m k with Some w => Some w | None => Some v end else m q.

(* load_material_texture_<TSpectral>, 698-880: the decoded image and alpha, None when the slot stays empty *)
Definition decode_spectral (s : source) (read_alpha is_color : bool) : option (img Sp * option (img R)) :=
  match s with
  | Missing => None
  | Compressed false _ => None
  | Compressed true None => None
  | Compressed true (Some b) => Some (map_img conv (b_image b), if read_alpha then b_alpha b else None)
  | RawTexels w h t => Some (map_img conv (Img w h (map texel_rgb t)), if read_alpha then (if (0 <? w)%Z then Some (Img w h (map texel_alpha t)) else None) else None)
  | OnDisk None => None
  | OnDisk (Some b) =>
      let rgb := match is_color, b_hint b with true, HsRGB => map_img (per_channel srgb_to_linear) (b_image b) | _, _ => b_image b end in
      Some (map_img conv rgb, if read_alpha then b_alpha b else None)
  end.
Definition load_spectral (path : option string) (read_alpha is_color : bool) (c : ctx) : ctx * (option nat * option nat) :=
  match path with
  | None => (c, (None, None))
  | Some p =>
      match k_sp c p with
      | Some h => (c, (Some h, if read_alpha then k_mono c (KAlpha p) else None))
      | None =>
          match decode_spectral (files p) read_alpha is_color with
          | None => (c, (None, None))
          | Some (im, alpha) =>
              let h := List.length (c_sp c) in
              let c1 := Ctx (c_sp c ++ [im]) (c_mono c) (c_v3 c) (emplace String.eqb (k_sp c) p h) (k_v3 c) (k_mono c) in
              match alpha with
              | None => (c1, (Some h, None))
              | Some al =>
                  let ha := List.length (c_mono c1) in
                  (Ctx (c_sp c1) (c_mono c1 ++ [al]) (c_v3 c1) (k_sp c1) (k_v3 c1) (emplace mono_key_eqb (k_mono c1) (KAlpha p) ha), (Some h, Some ha))
              end
          end
      end
  end.
(* load_material_texture_<Vec3<float>>; a value, not a NaN, is Some *)
Definition decode_vec3 (s : source) (is_normal : bool) : option (img (option vec3)) :=
  let f := if is_normal then decode_normal else Some in
  match s with
  | Missing => None
  | Compressed false _ => None
  | Compressed true None => None
  | Compressed true (Some b) => Some (map_img f (b_image b))
  | RawTexels w h t => Some (map_img f (Img w h (map texel_rgb t)))
  | OnDisk None => None
  | OnDisk (Some b) => Some (map_img f (b_image b))
  end.
Definition load_vec3 (path : option string) (is_normal : bool) (c : ctx) : ctx * option nat :=
  match path with
  | None => (c, None)
  | Some p =>
      match k_v3 c p with
      | Some h => (c, Some h)
      | None =>
          match decode_vec3 (files p) is_normal with
          | None => (c, None)
          | Some im => let h := List.length (c_v3 c) in (Ctx (c_sp c) (c_mono c) (c_v3 c ++ [im]) (k_sp c) (emplace String.eqb (k_v3 c) p h) (k_mono c), Some h)
          end
      end
  end.

(* the texture paths of an aiMaterial by slot; None when GetTextureCount is 0 *)
Record ai_material := AiMat { a_base : option string; a_rough : option string; a_metal : option string; a_normal : option string; a_emissive : option string }.
(* the images given to the material; None: its setter is not called *)
Record mat_images := MatImages { o_albedo : option nat; o_alpha : option nat; o_rough : option nat; o_metal : option nat; o_normal : option nat; o_emissive : option nat }.
(* 393-395 *)
Definition packed_path (m : ai_material) : option string := match a_rough m with Some p => Some p | None => a_metal m end.
(* a component of a vector that may be a NaN; a NaN texel is 0 here *)
Definition comp (f : vec3 -> R) (p : option vec3) : R := match p with Some v => f v | None => 0 end.
(* the split of the packed texture, 397-440 *)
Definition split_packed (h : nat) (c : ctx) : ctx * (option nat * option nat) :=
  match k_mono c (KRough h), k_mono c (KMetal h) with
  | Some r, Some m => (c, (Some r, Some m))
  | _, _ =>
      let im := nth h (c_v3 c) (Img 0 0 []) in
      let hr := List.length (c_mono c) in let hm := S hr in
      (Ctx (c_sp c) (c_mono c ++ [map_img (comp vy) im] ++ [map_img (comp vz) im]) (c_v3 c) (k_sp c) (k_v3 c)
         (emplace mono_key_eqb (emplace mono_key_eqb (k_mono c) (KRough h) hr) (KMetal h) hm), (Some hr, Some hm))
  end.
(* the body of the loop of process_materials_, 369-476 *)
Definition process_material (m : ai_material) (c : ctx) : ctx * mat_images :=
  let '(c, (albedo, alpha)) := load_spectral (a_base m) true true c in
  let '(c, packed) := load_vec3 (packed_path m) false c in
  let '(c, (rough, metal)) := match packed with Some h => split_packed h c | None => (c, (None, None)) end in
  let '(c, normal) := load_vec3 (a_normal m) true c in
  let '(c, (emissive, _)) := load_spectral (a_emissive m) false false c in
  (c, MatImages albedo (match albedo with Some _ => alpha | None => None end) rough metal normal emissive).
Fixpoint process_materials (ms : list ai_material) (c : ctx) : ctx * list mat_images :=
  match ms with
  | [] => (c, [])
  | m :: r => let '(c, o) := process_material m c in let '(c, os) := process_materials r c in (c, o :: os)
  end.
Definition empty_ctx : ctx := Ctx [] [] [] (fun _ => None) (fun _ => None) (fun _ => None).
Definition load_materials (ms : list ai_material) : ctx * list mat_images := process_materials ms empty_ctx.
End Loader.
