(* Model of huira::FrameBuffer, include/huira/render/frame_buffer.hpp.
   Simplification: pixel values of every channel are elements of one type [pix] with the default
   fill values as distinct constants; an image is its size and its pixel list; images are created
   with non-negative sizes (Image's size checks are modelled in ImageModel). *)
From Verif Require Import Common.

(* Pixel values: infinity (depth default), zero (all other defaults), or any other value *)
Inductive pix := PInf | PZero | PVal (z : Z).

(* Image<T>: width, height, pixels *)
Record image := Image { im_w : nat; im_h : nat; im_data : list pix }.
(* Image<T>(0, 0), and the default constructed image *)
Definition no_image : image := Image 0 0 [].
(* Image<T>(w, h, fill) *)
Definition filled (w h : nat) (v : pix) : image := Image w h (repeat v (w * h)).

(* The image members, frame_buffer.hpp:107-114 *)
Inductive storage := SDepth | SAlbedo | SIds | SCamN | SWorldN | SPower | SSensor.
Definition storage_eqb (a b : storage) : bool :=
  match a, b with
  | SDepth, SDepth | SAlbedo, SAlbedo | SIds, SIds | SCamN, SCamN | SWorldN, SWorldN
  | SPower, SPower | SSensor, SSensor => true | _, _ => false end.

(* The channels of the public interface *)
Inductive channel := Depth | Albedo | GeometryIds | CameraNormals | WorldNormals
                   | DirectPower | IndirectPower | Power | SensorResponse.

(* the member each accessor returns: depth() .. sensor_response(), frame_buffer.hpp:27-77 *)
Definition storage_of (c : channel) : storage :=
  match c with
  | Depth => SDepth | Albedo => SAlbedo | GeometryIds => SIds
  | CameraNormals => SCamN | WorldNormals => SWorldN
  | DirectPower | IndirectPower | Power => SPower
  | SensorResponse => SSensor
  end.

(* fill values, frame_buffer.hpp:25-76 and 79-101 *)
Definition default_of (s : storage) : pix := match s with SDepth => PInf | _ => PZero end.

Record fb := FB { res_w : nat; res_h : nat; img : storage -> image }.

(* FrameBuffer(Resolution), frame_buffer.hpp:103 *)
Definition new_fb (w h : nat) : fb := FB w h (fun _ => no_image).

(* has_, frame_buffer.hpp:116-120 *)
Definition has_img (f : fb) (i : image) : bool := (Nat.eqb (im_w i) (res_w f) && Nat.eqb (im_h i) (res_h f))%bool.
(* has_depth() .. has_sensor_response() *)
Definition has (f : fb) (c : channel) : bool := has_img f (img f (storage_of c)).

(* store an image in a member *)
Definition set_img (f : fb) (s : storage) (i : image) : fb :=
  FB (res_w f) (res_h f) (fun t => if storage_eqb s t then i else img f t).

(* enable_, frame_buffer.hpp:122-131 *)
Definition enable_storage (f : fb) (s : storage) (enable : bool) : fb :=
  if negb enable then set_img f s no_image
  else if (negb (Nat.eqb (im_w (img f s)) (res_w f)) || negb (Nat.eqb (im_h (img f s)) (res_h f)))%bool
       then set_img f s (filled (res_w f) (res_h f) (default_of s))
       else f.

(* enable_depth .. enable_sensor_response, frame_buffer.hpp:23-75; the sensor response also
   switches received_power_ (frame_buffer.hpp:72) *)
Definition enable (f : fb) (c : channel) (b : bool) : fb :=
  match c with
  | SensorResponse => enable_storage (enable_storage f SPower b) SSensor b
  | _ => enable_storage f (storage_of c) b
  end.

(* Image::fill *)
Definition fill (i : image) (v : pix) : image := Image (im_w i) (im_h i) (map (fun _ => v) (im_data i)).

(* one "if (has_x()) x.fill(default)" of clear *)
Definition clear_storage (f : fb) (s : storage) : fb :=
  if has_img f (img f s) then set_img f s (fill (img f s) (default_of s)) else f.

(* clear, frame_buffer.hpp:79-101 *)
Definition clear (f : fb) : fb :=
  fold_left clear_storage [SDepth; SAlbedo; SIds; SCamN; SWorldN; SPower; SSensor] f.

(* writing pixel k through the reference returned by an accessor *)
Definition write (f : fb) (c : channel) (k : nat) (v : pix) : outcome fb :=
  let i := img f (storage_of c) in
  if Nat.ltb k (List.length (im_data i))
  then Ok (set_img f (storage_of c) (Image (im_w i) (im_h i) (upd (im_data i) k v)))
  else Throws.

(* reading all pixels through an accessor *)
Definition pixels (f : fb) (c : channel) : list pix := im_data (img f (storage_of c)).

Inductive fop := FEnable (c : channel) (b : bool) | FClear | FWrite (c : channel) (k : nat) (v : pix).

(* one API call; a rejected write leaves the buffer unchanged *)
Definition fstep (f : fb) (o : fop) : fb :=
  match o with
  | FEnable c b => enable f c b
  | FClear => clear f
  | FWrite c k v => match write f c k v with Ok f' => f' | _ => f end
  end.
Definition frun (f : fb) (os : list fop) : fb := fold_left fstep os f.
