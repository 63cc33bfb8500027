(* Model of the background of a scene: set_background_radiance (include/huira_impl/scene/scene.ipp:926-941) and its lookup for a ray that hits nothing
   (include/huira_impl/render/renderer.ipp:288-304). Exact real arithmetic, one spectral bin. *)
From Verif Require Import Common Vec3 TransformModel ImageModel ImageSpec SurfaceModel.
Open Scope R_scope.

(* std::clamp(y, -1, 1), renderer.ipp:293 *)
Definition clamp11 (y : R) : R := if Rltb y (-1) then -1 else if Rltb 1 y then 1 else y.
(* renderer.ipp:290-294 *)
Definition env_u (dir : vec3) : R := let d := normalize dir in 1 / 2 + atan2 (vz d) (vx d) * (1 / 2 * (1 / PI)).
Definition env_v (dir : vec3) : R := let d := normalize dir in 1 / 2 - asin (clamp11 (vy d)) * (1 / PI).
(* 296: sample_bilinear with its default wrap mode, Repeat (image.hpp:118-120) *)
Definition env_radiance (background : img R) (dir : vec3) : outcome R := sample_bilinear exact Repeat background (env_u dir) (env_v dir).
(* set_background_radiance(TSpectral), scene.ipp:932-935 *)
Definition uniform_background (value : R) : outcome (img R) := new_image 1 1 value.
