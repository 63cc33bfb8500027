(* Model of the stars of a scene: set_stars, load_stars, load_dynamic_stars and update_star_epoch, include/huira_impl/scene/scene.ipp:989-1099, with
   Star's constructors and update_direction, include/huira_impl/stars/star.ipp:13-17, 44-61, 68-90. Exact real arithmetic in place of double and float.
   Epochs are ephemeris seconds (Time::et()), finite numbers. What StarCatalog::read_star_data returns (StarCatalogModel.v) is part of the call. *)
From Verif Require Import Common Vec3 SpectralModel LightModel MotionModel StarLightModel.
From Coq Require Import List Reals.
Import ListNotations.
Open Scope R_scope.

(* StarData, star_data.hpp: the fields a Star is made from *)
Record sdata := SD { d_ra : R; d_dec : R; d_pmra : R; d_pmdec : R; d_temp : R; d_solid : R }.
(* Star, star.hpp:11-34 *)
Record star := St { st_direction : vec3; st_irradiance : list R }.
(* Star's default constructor, star.hpp:13, 25-26 *)
Definition blank_star : star := St vzero [].
(* Star(StarData, years), star.ipp:54-61 *)
Definition make_star (bins : list bin) (years : R) (d : sdata) : star :=
  St (star_direction (d_ra d) (d_dec d) (d_pmra d) (d_pmdec d) years) (star_irradiance bins (d_temp d) (d_solid d)).
(* update_direction(StarData, years), star.ipp:71-76: the irradiance stays *)
Definition update_direction (years : R) (d : sdata) (s : star) : star :=
  St (star_direction (d_ra d) (d_dec d) (d_pmra d) (d_pmdec d) years) (st_irradiance s).

(* the members dynamic_stars_, stars_, dynamic_star_data_ and star_epoch_ of Scene, scene.hpp:273-276 *)
Record stars := Stars { k_dynamic : bool; k_stars : list star; k_data : list sdata; k_epoch : R }.
Definition no_stars : stars := Stars false [] [] 0.
(* what surrounds one call: SPICE's answers with the kernels loaded at that moment (julian_years_since_j2000(TT), None: unitim signals an error and the
   wrapper throws; whether to_utc_string can be formatted), whether the log level lets information through (logger.hpp:229-238: otherwise the message is not
   even built), and the order in which TBB's threads come to the n indices of a parallel_for *)
Record world := W { w_years : R -> option R; w_utc : R -> bool; w_log : bool; w_order : nat -> list nat }.
(* tbb::parallel_for over the indices of a vector, each index writing its own element; UB: an index outside *)
Fixpoint each_index {A} (f : nat -> A -> outcome A) (order : list nat) (l : list A) : outcome (list A) :=
  match order with
  | [] => Ok l
  | i :: rest => match nth_error l i with
                 | None => UB
                 | Some a => obind (f i a) (fun b => each_index f rest ((firstn i l ++ b :: skipn (S i) l)%list))
                 end
  end.

(* load_stars and load_dynamic_stars take what the catalogue file gives: None if reading throws *)
Inductive call := SetStars (l : list star) | LoadStars (c : option (list sdata)) (t : R) | LoadDynamic (c : option (list sdata)) (t : R) | UpdateEpoch (t : R).
(* scene.ipp:1018-1027 and 1053-1062: the stars of a catalogue at a time *)
Definition build (bins : list bin) (w : world) (c : option (list sdata)) (t : R) : outcome (list star) :=
  match c with
  | None => Throws
  | Some data => match w_years w t with
    | None => Throws
    | Some y => each_index (fun i _ => match nth_error data i with Some d => Ok (make_star bins y d) | None => UB end)
                           (w_order w (List.length data)) (repeat blank_star (List.length data))
    end
  end.
(* one call: the scene's stars afterwards (also when the call throws), and how the call ended *)
Definition step (bins : list bin) (w : world) (s : stars) (c : call) : stars * outcome unit :=
  match c with
  | SetStars l => (Stars false l (k_data s) (k_epoch s), Ok tt)
  | LoadStars c t => match build bins w c t with
    | Ok l => (Stars false l (k_data s) (k_epoch s), Ok tt) | Throws => (s, Throws) | UB => (s, UB) end
  | LoadDynamic c t => match build bins w c t, c with
    | Ok l, Some data => (Stars true l data t, Ok tt) | Ok _, None => (s, Throws) | Throws, _ => (s, Throws) | UB, _ => (s, UB) end
  | UpdateEpoch t =>
    if negb (k_dynamic s) then (s, Ok tt) else
    if Req_EM_T t (k_epoch s) then (s, Ok tt) else
    match w_years w t with
    | None => (s, Throws)
    | Some y =>
      match each_index (fun i a => match nth_error (k_data s) i with Some d => Ok (update_direction y d a) | None => UB end)
                       (w_order w (List.length (k_stars s))) (k_stars s) with
      | Ok l => (Stars true l (k_data s) t, if (w_log w && negb (w_utc w t))%bool then Throws else Ok tt)
      | Throws => (s, Throws) | UB => (s, UB)
      end
    end
  end.
(* a history of calls, each in its own surroundings, with how each ended *)
Fixpoint run (bins : list bin) (s : stars) (h : list (world * call)) : stars * list (call * outcome unit) :=
  match h with
  | [] => (s, [])
  | (w, c) :: rest => let '(s', r) := step bins w s c in let '(s'', tr) := run bins s' rest in (s'', (c, r) :: tr)
  end.
