(* Specification: what one channel, on its own, must look like after a history. *)
From Verif Require Import Common FrameBufferModel.

Definition channel_eqb (a b : channel) : bool :=
  match a, b with
  | Depth, Depth | Albedo, Albedo | GeometryIds, GeometryIds | CameraNormals, CameraNormals
  | WorldNormals, WorldNormals | DirectPower, DirectPower | IndirectPower, IndirectPower
  | Power, Power | SensorResponse, SensorResponse => true | _, _ => false end.

(* Abstract channel: None when disabled, otherwise its pixels. *)
Definition chan_default (c : channel) : pix := match c with Depth => PInf | _ => PZero end.

Definition chan_step (n : nat) (c : channel) (st : option (list pix)) (o : fop) : option (list pix) :=
  match o with
  | FEnable d b => if channel_eqb c d
                   then (if b then match st with None => Some (repeat (chan_default c) n) | Some p => Some p end else None)
                   else st
  | FClear => match st with None => None | Some _ => Some (repeat (chan_default c) n) end
  | FWrite d k v => if channel_eqb c d
                    then match st with None => None | Some p => Some (if Nat.ltb k n then upd p k v else p) end
                    else st
  end.

Definition chan_run (n : nat) (c : channel) (os : list fop) : option (list pix) :=
  fold_left (chan_step n c) os None.

(* what the frame buffer shows of a channel *)
Definition observe (f : fb) (c : channel) : option (list pix) :=
  if has f c then Some (pixels f c) else None.
