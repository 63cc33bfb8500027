(* Property theorems for the frame buffer: C14. *)
From Verif Require Import Common FrameBufferModel FrameBufferSpec FrameBufferProofs.

(* C14, true part. For every resolution with at least one pixel and every history, each of the five
   geometry channels and the sensor response behaves as if it were alone, whatever is done to the
   others; each received-power channel does so as long as the history does not use one of the
   channels that share its storage. Missing: independence of the received-power channels and the
   sensor response (refuted below). *)
Theorem frame_buffer_channels_independent_partial :
  forall (w h : nat) (os : list fop) (c : channel), (0 < w * h)%nat ->
  (match c with Power | DirectPower | IndirectPower => forallb (no_alias c) os = true | _ => True end) ->
  observe (frun (new_fb w h) os) c = chan_run (w * h) c os.
Proof.
  intros w h os c Hwh Hna. unfold chan_run.
  assert (Ho : observe (new_fb w h) c = None).
  { rewrite observe_img. cbn. rewrite no_image_has by exact Hwh. reflexivity. }
  rewrite <- Ho. apply (frun_observe os c (new_fb w h) (new_fb_wf w h Hwh)).
  destruct c; try exact Hna; (apply forallb_forall; intros [d b| |d k v] _; reflexivity).
Qed.
Print Assumptions frame_buffer_channels_independent_partial.

Example frame_buffer_example :
  let os := [FEnable Depth true; FEnable Albedo true; FWrite Depth 1 (PVal 5); FEnable SensorResponse true;
             FEnable Albedo false; FWrite Depth 9 (PVal 1)] in
  observe (frun (new_fb 2 1) os) Depth = Some [PInf; PVal 5] /\
  observe (frun (new_fb 2 1) (os ++ [FClear])) Depth = Some [PInf; PInf] /\
  observe (frun (new_fb 2 1) os) Albedo = None.
Proof. vm_compute. auto. Qed.

(* C14, full claim is false: disabling the sensor response discards the received power that was
   enabled separately, and the direct, indirect and total power channels are one image. *)
Theorem frame_buffer_power_alias_refuted :
  exists os1 os2 : list fop,
    chan_run 1 Power os1 = Some [PVal 3] /\ observe (frun (new_fb 1 1) os1) Power = None /\
    chan_run 1 IndirectPower os2 = None /\ observe (frun (new_fb 1 1) os2) IndirectPower = Some [PVal 3].
Proof.
  exists [FEnable Power true; FWrite Power 0 (PVal 3); FEnable SensorResponse false],
         [FEnable DirectPower true; FWrite DirectPower 0 (PVal 3)].
  vm_compute. auto.
Qed.
Print Assumptions frame_buffer_power_alias_refuted.
