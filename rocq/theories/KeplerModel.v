(* Model of Node::set_keplerian_orbit, include/huira_impl/scene/node.ipp:295-307, of KeplerianOrbitCallback,
   include/huira/scene/state_callbacks/keplerian_orbit.hpp:11-45, and of the wrapper spice::conics, include/huira_impl/core/spice.ipp:386-403.
   Exact real arithmetic in place of double. The call conics_c itself is CSPICE's and not in /repo: it is modelled from its documentation. *)
From Verif Require Import Common Vec3.
Open Scope R_scope.

(* conics_c's eight elements in its order: RP perifocal distance (km), ECC, INC, LNODE, ARGP (radians), M0 (radians), T0 (seconds), MU (km^3/s^2) *)
Record elements := El { el_rp : R; el_ecc : R; el_inc : R; el_node : R; el_argp : R; el_m0 : R; el_t0 : R; el_mu : R }.
(* the unit vectors towards periapsis and a quarter turn ahead of it in the orbit's plane *)
Definition to_periapsis (inc node argp : R) : vec3 :=
  V3 (cos node * cos argp - sin node * sin argp * cos inc) (sin node * cos argp + cos node * sin argp * cos inc) (sin argp * sin inc).
Definition ahead_of_it (inc node argp : R) : vec3 :=
  V3 (- cos node * sin argp - sin node * cos argp * cos inc) (- sin node * sin argp + cos node * cos argp * cos inc) (cos argp * sin inc).
(* conics_c: an error for a negative eccentricity, a perifocal distance or a mass that is not positive; the elliptic orbit otherwise. [solver e M] is the
   eccentric anomaly; [open] is what conics_c answers for parabolas and hyperbolas, which is not modelled *)
Definition conics_c (solver : R -> R -> R) (open : elements -> R -> outcome (vec3 * vec3)) (el : elements) (t : R) : outcome (vec3 * vec3) :=
  let e := el_ecc el in
  if (Rltb e 0 || Rleb (el_rp el) 0 || Rleb (el_mu el) 0)%bool then Throws else
  if Rleb 1 e then open el t else
  let a := el_rp el / (1 - e) in
  let n := sqrt (el_mu el / (a * a * a)) in
  let b := a * sqrt (1 - e * e) in
  let E := solver e (el_m0 el + n * (t - el_t0 el)) in
  let rate := n / (1 - e * cos E) in
  let p := to_periapsis (el_inc el) (el_node el) (el_argp el) in
  let q := ahead_of_it (el_inc el) (el_node el) (el_argp el) in
  Ok (vadd (vscale (a * (cos E - e)) p) (vscale (b * sin E) q), vadd (vscale (- (a * sin E * rate)) p) (vscale (b * cos E * rate) q)).
(* the wrapper, spice.ipp:386-403: kilometres to metres *)
Definition conics (solver : R -> R -> R) (open : elements -> R -> outcome (vec3 * vec3)) (el : elements) (t : R) : outcome (vec3 * vec3) :=
  obind (conics_c solver open el t) (fun rv => Ok (vscale 1000 (fst rv), vscale 1000 (snd rv))).
(* the constructor, keplerian_orbit.hpp:12-29: the semi-major axis in metres becomes the first element, in kilometres *)
Definition make_elements (a e i raan argp m0 epoch mu : R) : elements := El (a / 1000) e i raan argp m0 epoch mu.
(* what a node with set_keplerian_orbit(a, e, i, raan, argp, m0, epoch, mu) reports at time t: evaluate, keplerian_orbit.hpp:31-42 *)
Definition keplerian_orbit (solver : R -> R -> R) (open : elements -> R -> outcome (vec3 * vec3)) (a e i raan argp m0 epoch mu t : R) : outcome (vec3 * vec3) :=
  conics solver open (make_elements a e i raan argp m0 epoch mu) t.
