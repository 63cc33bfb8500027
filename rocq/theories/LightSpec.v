(* Specification vocabulary for light sources. *)
From Coq Require Import Reals List.
From Verif Require Import Common Vec3 SpectralSpec.
From Coquelicot Require Import Coquelicot.
Import ListNotations.
Open Scope R_scope.

Definition dist (a b : vec3) : R := sqrt ((vx a - vx b) ^ 2 + (vy a - vy b) ^ 2 + (vz a - vz b) ^ 2).
(* what passes through a sphere of radius d around a source that gives irradiance E everywhere on it *)
Definition flux_through_sphere (d E : R) : R := E * (4 * PI * d ^ 2).
(* the directions within the angle acos z of an axis have solid angle 2 pi (1 - z) (Archimedes' hat-box theorem) *)
Definition cap_solid_angle (z : R) : R := 2 * PI * (1 - z).
(* the cosine of the half angle under which a sphere of radius r is seen from distance d *)
Definition seen_cos (r d : R) : R := sqrt (1 - (r / d) ^ 2).
(* the ray from p in direction w meets the ball around c within distance t *)
Definition along (p w : vec3) (t : R) : vec3 := vadd p (vscale t w).
(* HG system (Bowell et al.): reduced magnitude from the two phase values, distances in metres *)
Definition hg_magnitude (H G phi1 phi2 r delta au : R) : R :=
  H - 5 / 2 * (ln ((1 - G) * phi1 + G * phi2) / ln 10) + 5 * (ln ((r / au) * (delta / au)) / ln 10).
(* the total over all directions of a quantity that depends on the phase angle only *)
Definition total_over_directions (f : R -> R) (x : R) : Prop := is_RInt (fun a => f a * (2 * PI * sin a)) 0 PI x.
(* the HG phase function exp (-A tan(alpha/2)^B) for a phase angle in [0, pi) *)
Definition hg_phi (A B alpha : R) : R := if Req_EM_T alpha 0 then 1 else exp (- A * Rpower (tan (alpha / 2)) B).
(* how much light a Lambertian ball sends in the direction at phase angle alpha: cosine of incidence times cosine of emission over the longitudes
   that are both lit and visible (the dependence on latitude is the same factor for every phase angle) *)
Definition lit_and_seen (alpha x : R) : Prop := is_RInt (fun lon => cos lon * cos (lon - alpha)) (alpha - PI / 2) (PI / 2) x.
