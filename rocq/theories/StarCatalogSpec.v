(* Specification vocabulary for the star catalogue. *)
From Coq Require Import Permutation Sorted.
From Verif Require Import Common StarCatalogModel.

(* the fields fit their C++ types *)
Definition star_ok (s : star) : Prop :=
  (s_id s < 2 ^ 64 /\ s_ra s < 2 ^ 64 /\ s_dec s < 2 ^ 64 /\ s_pmra s < 2 ^ 32 /\ s_pmdec s < 2 ^ 32 /\
   s_solid s < 2 ^ 64 /\ s_temp s < 2 ^ 32 /\ s_mag s < 2 ^ 32)%N.

(* what std::sort with operator< may return: a permutation in which no later star is brighter *)
Definition sorts_to (l sorted : list star) : Prop :=
  Permutation l sorted /\ StronglySorted (fun a b => f32_lt (s_mag b) (s_mag a) = false) sorted.
