(* Model of the optics a CameraModel caches - its point spread function and the blur kernels of its aperture - over histories of configuration calls
   (include/huira_impl/cameras/camera_model.ipp), and of the decisions the renderer takes from them (include/huira_impl/render/renderer.ipp).
   What is cached is identified by the arguments it was computed from; the values themselves are the subject of PsfModel, AiryModel and DefocusModel.
   Arithmetic on the arguments is exact. *)
From Verif Require Import Vec3 DistortionModel FrustumModel CameraModel SensorModel PsfModel DefocusModel.
Open Scope R_scope.

(* a PSF: an Airy disc with the arguments of its constructor (make_psf, circular_aperture.ipp:105-111), or one the user made (set_psf) *)
Inductive psf_t :=
| Airy (focal px py diameter : fl) (radius banks : Z)
| Own (tag : Z) (radius banks : Z).
Definition psf_radius (p : psf_t) : Z := match p with Airy _ _ _ _ r _ => r | Own _ r _ => r end.
Definition psf_banks (p : psf_t) : Z := match p with Airy _ _ _ _ _ b => b | Own _ _ b => b end.

(* the arguments of build_defocus_kernel, with the aperture's radius *)
Record blur_args := { b_diopters : R; b_focal : fl; b_radius : fl; b_px : fl; b_py : fl }.

(* the members of CameraModel that matter here, camera_model.hpp:159-189: cam holds focal length and sensor, diameter that of the aperture
   object, blur the arguments of the last build_defocus_kernel on that object *)
Record optics := {
  cam : camera; diameter : fl; psf : option psf_t; use_ap : bool; conv : bool; focus : fl; blur : option blur_args; dof : bool
}.

Definition fabs (a : fl) : fl := match a with Fin r => Fin (Rabs r) | NInf => PInf | _ => a end.
Definition fhalf (a : fl) : fl := match a with Fin r => Fin (r / 2) | _ => a end.

(* the constructor, camera_model.ipp:17-27: f/2.8 at 50 mm *)
Definition optics0 (sample : image (option vec3) -> R -> R -> option vec3) : optics :=
  {| cam := camera0 sample; diameter := Fin (5 / 100 / (28 / 10)); psf := None; use_ap := false; conv := false; focus := PInf; blur := None; dof := false |}.

Section Calls.
Variable sample : image (option vec3) -> R -> R -> option vec3.

(* make_psf with the current settings. It allocates a table and the kernels: [room] says whether the memory was there *)
Definition make_psf (o : optics) (radius banks : Z) (room : bool) : option psf_t :=
  if room then Some (Airy (focal (cam o)) (pitch_x (cam o)) (pitch_y (cam o)) (diameter o) radius banks) else None.
Definition with_psf (o : optics) (p : option psf_t) (u : bool) : optics :=
  {| cam := cam o; diameter := diameter o; psf := p; use_ap := u; conv := conv o; focus := focus o; blur := blur o; dof := dof o |}.
Definition with_cam (o : optics) (c : camera) : optics :=
  {| cam := c; diameter := diameter o; psf := psf o; use_ap := use_ap o; conv := conv o; focus := focus o; blur := blur o; dof := dof o |}.
Definition with_aperture (o : optics) (d : fl) (b : option blur_args) : optics :=
  {| cam := cam o; diameter := d; psf := psf o; use_ap := use_ap o; conv := conv o; focus := focus o; blur := b; dof := dof o |}.

(* the end of set_focal_length and set_fstop, camera_model.ipp:46-51, 577-582: psf_->get_radius() on a null psf_ is UB *)
Definition rebuild (o : optics) (room : bool) : outcome (optics * bool) :=
  if use_ap o then
    match psf o with
    | None => UB
    | Some p => match make_psf o (psf_radius p) (psf_banks p) room with Some q => Ok (with_psf o (Some q) true, false) | None => Ok (o, true) end
    end
  else Ok (o, false).

(* a configuration call *)
Inductive op :=
| Cam (k : call) (room : bool) | SetAperture (d : fl) | SetPsf (tag radius banks : Z) | UseAperturePsf (radius banks : Z) (room : bool)
| DeletePsf | UseAperturePsfFlag (b room : bool) | EnableConvolution (b : bool) | SetFstop (x : fl) (room : bool) | SetFocus (d : fl) | SetDiopters (x : R) | EnableDof (b : bool).

(* the arguments set_focus_distance passes on, camera_model.ipp:410-413; focal_length() is focal_length_ *)
Definition blur_now (o : optics) : blur_args :=
  {| b_diopters := get_diopters (focus o); b_focal := focal (cam o); b_radius := fhalf (diameter o); b_px := pitch_x (cam o); b_py := pitch_y (cam o) |}.
(* set_focus_distance, camera_model.ipp:400-414, after its checks (SensorModel.set_focus_distance) *)
Definition focus_at (o : optics) (r : option fl) : optics * bool :=
  match r with
  | None => (o, true)
  | Some d => let o := {| cam := cam o; diameter := diameter o; psf := psf o; use_ap := use_ap o; conv := conv o; focus := d; blur := blur o; dof := dof o |} in
              (with_aperture o (diameter o) (Some (blur_now o)), false)
  end.

(* the new state and whether the call threw *)
Definition step (o : optics) (k : op) : outcome (optics * bool) :=
  match k with
  | Cam (SetFocalLength f) room =>                                  (* set_focal_length, camera_model.ipp:34-52 *)
      let '(c, threw) := set_focal_length sample f (cam o) in
      if threw then Ok (with_cam o c, true) else rebuild (with_cam o c) room
  | Cam k _ => let '(c, threw) := do_call sample k (cam o) in Ok (with_cam o c, threw)  (* the other calls of CameraModel.v do not touch the optics *)
  | SetAperture d => Ok (with_aperture o d None, false)             (* set_aperture, camera_model.ipp:292-297: a new object *)
  | SetPsf t r b => Ok (with_psf o (Some (Own t r b)) false, false) (* set_psf, camera_model.ipp:306-312 *)
  | UseAperturePsf r b room =>                                      (* use_aperture_psf, camera_model.ipp:319-327 *)
      match make_psf o r b room with Some q => Ok (with_psf o (Some q) true, false) | None => Ok (with_psf o (psf o) true, true) end
  | DeletePsf => Ok (with_psf o None false, false)                  (* delete_psf, camera_model.ipp:332-337 *)
  | UseAperturePsfFlag true room =>                                 (* CameraModelHandle::use_aperture_psf(bool), camera_handle.ipp:339-346; defaults 64, 16 *)
      match make_psf o 64 16 room with Some q => Ok (with_psf o (Some q) true, false) | None => Ok (with_psf o (psf o) true, true) end
  | UseAperturePsfFlag false _ => Ok (with_psf o None false, false)
  | EnableConvolution b => Ok ({| cam := cam o; diameter := diameter o; psf := psf o; use_ap := use_ap o; conv := b; focus := focus o; blur := blur o; dof := dof o |}, false)
  | SetFstop x room =>                                              (* set_fstop, camera_model.ipp:572-583; sqrt(4 (pi d^2 / 4) / pi) = |d| *)
      rebuild (with_aperture o (fabs (fdiv (focal (cam o)) x)) (blur o)) room
  | SetFocus d => Ok (focus_at o (set_focus_distance d))
  | SetDiopters x => Ok (focus_at o (set_diopters x))               (* camera_model.ipp:425-434 *)
  | EnableDof b => Ok ({| cam := cam o; diameter := diameter o; psf := psf o; use_ap := use_ap o; conv := conv o; focus := focus o; blur := blur o; dof := b |}, false)
  end.
(* a history; exceptions are caught by the user. None: undefined behaviour *)
Fixpoint history (l : list op) (o : optics) : option optics :=
  match l with
  | [] => Some o
  | k :: r => match step o k with Ok (o', _) => history r o' | _ => None end
  end.
End Calls.

(** the renderer's decisions *)
(* Aperture::has_defocus (aperture.hpp:47) on what build_defocus_kernel made of its arguments (16 banks). With an argument that is not a finite
   number the radius is infinite or NaN and its conversion to int is undefined: UB *)
Definition spot (b : option blur_args) : outcome bool :=
  match b with
  | None => Ok false
  | Some a => match b_focal a, b_radius a, b_px a, b_py a with
              | Fin f, Fin r, Fin px, Fin py => Ok (has_defocus (build cache0 (b_diopters a) f r px py 16))
              | _, _, _, _ => UB
              end
  end.
(* how a point source is drawn, renderer.ipp:664-671, 900-990 *)
Inductive stamp := Disc (a : blur_args) | Psf (p : psf_t) | Point.
Definition star_stamp (o : optics) : outcome stamp :=
  match spot (blur o) with
  | Ok true => match blur o with Some a => Ok (Disc a) | None => UB end
  | Ok false => match psf o with Some p => Ok (Psf p) | None => Ok Point end
  | Throws => Throws | UB => UB
  end.
(* the convolutions at the end of path_trace_ (renderer.ipp:574-577) and of render_unresolved_ (1014-1017): get_psf_kernel dereferences psf_.
   [wanted]: the frame buffer holds received power (574, 657-661). [items]: there is anything unresolved to draw (696-698: otherwise render_unresolved_ returns before) *)
Definition resolved_convolution (o : optics) (wanted : bool) : outcome (option psf_t) :=
  if (wanted && conv o)%bool then match psf o with Some p => Ok (Some p) | None => UB end else Ok None.
Definition star_convolution (o : optics) (wanted items : bool) : outcome (option psf_t) :=
  if (wanted && items)%bool then
    match spot (blur o) with
    | Ok b => if (b && conv o)%bool then match psf o with Some p => Ok (Some p) | None => UB end else Ok None
    | Throws => Throws | UB => UB
    end
  else Ok None.
(* whether the rays of a pixel spread over the aperture towards a point at a finite distance, cast_ray, camera_model.ipp:500-510; the path tracer casts its
   rays with this function *)
Definition rays_focus (o : optics) : bool := match dof o, focus o with true, Fin _ => true | _, _ => false end.
