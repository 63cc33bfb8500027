(* Model of the NumPy side of the Python bindings: bindings/python/include/huira/core/types_py.ipp, core/rotation_py.ipp and images/image_py.ipp, over the layout rules of NumPy
   (a pointer, a shape, strides in bytes) and what pybind11's array_t<T, flags> does to an argument: without c_style an array of the right type is passed as it is, whatever its
   strides; with c_style it is copied unless it is contiguous already. An element is stored at its address; None: no element of the allocation begins there. *)
From Verif Require Import Common.
Local Open Scope Z_scope.
Local Open Scope list_scope.

Section Arrays.
Context {V : Type}.
(* a_native: the elements have the wanted type *)
Record array := Array { a_mem : Z -> option V; a_ptr : Z; a_size : Z; a_shape : list Z; a_strides : list Z; a_native : bool }.
Fixpoint dot (s i : list Z) : Z := match s, i with x :: s', y :: i' => x * y + dot s' i' | _, _ => 0 end.
(* a[i] as NumPy defines it *)
Definition item (a : array) (i : list Z) : option V := a_mem a (a_ptr a + dot (a_strides a) i).
Fixpoint prod (s : list Z) : Z := match s with [] => 1 | d :: r => d * prod r end.
(* NumPy's contiguity test (relaxed strides): from the last dimension on, the stride a dense array would have, and whether all strides so far agree *)
Fixpoint dense (size : Z) (shape strides : list Z) : Z * bool :=
  match shape, strides with
  | d :: ds, s :: ss => let '(sd, ok) := dense size ds ss in if d =? 1 then (sd, ok) else (sd * d, ok && (s =? sd))
  | _, _ => (size, true)
  end.
Definition contiguous (a : array) : bool := existsb (Z.eqb 0) (a_shape a) || snd (dense (a_size a) (a_shape a) (a_strides a)).
(* a fresh array in C order holding list l *)
Fixpoint row_major (size : Z) (shape : list Z) : list Z := match shape with [] => [] | d :: ds => size * prod ds :: row_major size ds end.
Definition fresh (size : Z) (shape : list Z) (l : list (option V)) : array :=
  Array (fun p => if p mod size =? 0 then if (0 <=? p / size) then match nth_error l (Z.to_nat (p / size)) with Some v => v | None => None end else None else None) 0 size shape (row_major size shape) true.
(* the index of the k-th element in C order *)
Fixpoint unravel (shape : list Z) (k : Z) : list Z := match shape with [] => [] | d :: ds => k / prod ds :: unravel ds (k mod prod ds) end.
Definition iota (n : Z) : list Z := map Z.of_nat (seq 0 (Z.to_nat n)).
Definition copied (size : Z) (a : array) : array := fresh size (a_shape a) (map (fun k => item a (unravel (a_shape a) k)) (iota (prod (a_shape a)))).
(* py::array_t<T> and py::array_t<T, c_style | forcecast> as parameter types; size = sizeof(T) *)
Definition as_given (size : Z) (a : array) : array := if a_native a then a else copied size a.
Definition c_style (size : Z) (a : array) : array := if a_native a && contiguous a then a else copied size a.
(* static_cast<T*>(buf.ptr)[k] *)
Definition raw (size : Z) (a : array) (k : Z) : option V := a_mem a (a_ptr a + size * k).

(* what a call gives: a value, an exception, or a read or write outside an object / a signed overflow *)
Inductive outcome (A : Type) := Value (x : A) | Throws | Undefined.
Arguments Value {A}. Arguments Throws {A}. Arguments Undefined {A}.
Definition reads (l : list (option V)) : outcome (list V) :=
  fold_right (fun x acc => match x, acc with Some v, Value r => Value (v :: r) | _, _ => Undefined end) (Value []) l.

(** vectors: Vec3 (types_py.ipp:28-36), Quaternion (119-128), ShusterQuaternion (180-189), the axes and vectors of Rotation (rotation_py.ipp:79-88, 131-140, 185-197, 249-257) *)
Definition vector (n : Z) (a : array) : outcome (list V) :=
  let b := as_given 8 a in
  match a_shape b with
  | [d] => if d =? n then reads (map (raw 8 b) (iota n)) else Throws
  | _ => Throws
  end.
(* to_numpy of these types: the components in order (types_py.ipp:52-60, 149-157, 209-217) *)
Definition vector_to_numpy (v : list V) : array := fresh 8 [Z.of_nat (List.length v)] (map Some v).

(** matrices: Mat3 (types_py.ipp:72-87), Rotation from a matrix (rotation_py.ipp:61-76, 113-128); a matrix is mat[col][row] *)
Definition matrix (a : array) : outcome (Z -> Z -> option V) :=
  let b := c_style 8 a in
  match a_shape b with
  | [r; c] => if (r =? 3) && (c =? 3) then
      match reads (map (raw 8 b) (iota 9)) with Value _ => Value (fun col row => raw 8 b (row * 3 + col)) | Throws => Throws | Undefined => Undefined end
      else Throws
  | _ => Throws
  end.
(* to_numpy (types_py.ipp:91-102; rotation_py.ipp:211-234): buf(row, col) = mat[col][row] *)
Definition matrix_to_numpy (mat : Z -> Z -> option V) : array := fresh 8 [3; 3] (flat_map (fun row => map (fun col => mat col row) (iota 3)) (iota 3)).

(** images *)
(* Image<PixelT>: width, height, the scalars in memory order (image.ipp:35-58) *)
Record image := Img { i_width : Z; i_height : Z; i_data : list V }.
Definition int32 (x : Z) : Z := (x + 2 ^ 31) mod 2 ^ 32 - 2 ^ 31.
(* Image(int, int), image.ipp:57-60: width * height in int, then the size of the vector; a negative one is refused by std::vector *)
Definition pixels (w h : Z) : outcome Z := let p := w * h in if (p <? - 2 ^ 31) || (2 ^ 31 <=? p) then Undefined else if p <? 0 then Throws else Value p.
(* the constructor from an array, image_py.ipp:47-99 *)
Definition dims (channels : Z) (shape : list Z) : option (Z * Z) :=
  if channels =? 1 then
    match shape with
    | [h; w] => Some (int32 h, int32 w)
    | [h; w; c] => if c =? 1 then Some (int32 h, int32 w) else None
    | _ => None
    end
  else match shape with [h; w; c] => if c =? channels then Some (int32 h, int32 w) else None | _ => None end.
Definition from_numpy (size channels : Z) (a : array) : outcome image :=
  let b := c_style size a in
  match dims channels (a_shape b) with
  | None => Throws
  | Some (h, w) =>
      match pixels w h with
      | Throws => Throws
      | Undefined => Undefined
      | Value n =>
          match reads (flat_map (fun i => map (fun c => raw size b (i * channels + c)) (iota channels)) (iota n)) with
          | Value l => Value (Img w h l)
          | Throws => Throws
          | Undefined => Undefined
          end
      end
  end.
Definition image_shape (channels : Z) (m : image) : list Z := if channels =? 1 then [i_height m; i_width m] else [i_height m; i_width m; channels].
(* to_numpy, image_py.ipp:139-165: memcpy of width * height * channels scalars into a fresh array *)
Definition to_numpy (size channels : Z) (m : image) : array := fresh size (image_shape channels m) (map Some (firstn (Z.to_nat (i_width m * i_height m * channels)) (i_data m))).
(* the buffer protocol, 104-134: a view of the pixels themselves; base: the address of the vector's memory *)
Definition view (size channels base : Z) (m : image) : array :=
  Array (fun p => if (p - base) mod size =? 0 then if 0 <=? (p - base) / size then nth_error (i_data m) (Z.to_nat ((p - base) / size)) else None else None) base size (image_shape channels m)
        (if channels =? 1 then [size * i_width m; size] else [size * channels * i_width m; size * channels; size]) true.
End Arrays.
Arguments Value {A}. Arguments Throws {A}. Arguments Undefined {A}.

(** who owns the memory a view looks at: FrameBuffer's channels as Python sees them (frame_buffer_py.ipp), enable_ and clear of frame_buffer.hpp:118-132, 82-100, Image::clear (image.ipp:516-521) and the
    assignment to ImageBundle.image (def_readwrite, image_py.ipp:453). An image is its block of memory, how many elements fit and how many there are (width * height); a block is live until its vector gives it up.
    np.asarray(fb.depth) keeps the frame buffer alive, not the block. *)
Record vec := Vec { v_block : nat; v_capacity : Z; v_len : Z }.
Record heap := Heap { h_next : nat; h_live : nat -> bool }.
Definition allocate (h : heap) (n : Z) : heap * vec := (Heap (S (h_next h)) (fun b => if Nat.eqb b (h_next h) then true else h_live h b), Vec (h_next h) n n).
Definition release (h : heap) (v : vec) : heap := Heap (h_next h) (fun b => if Nat.eqb b (v_block v) then false else h_live h b).
Inductive operation := Enable (on : bool) | Fill | Clear_image | Assign (len : Z).
(* move assignment from a fresh image: the old block goes; an empty image has no block of its own, modelled as one of no elements *)
Definition replace (h : heap) (v : vec) (n : Z) : heap * vec := let '(h1, w) := allocate h n in (release h1 v, w).
(* full = width * height of the frame buffer *)
Definition operate (full : Z) (s : heap * vec) (o : operation) : heap * vec :=
  let '(h, v) := s in
  match o with
  | Enable false => replace h v 0
  | Enable true => if v_len v =? full then (h, v) else replace h v full
  | Fill => (h, v)
  | Clear_image => (h, Vec (v_block v) (v_capacity v) 0)
  | Assign n => if n <=? v_capacity v then (h, Vec (v_block v) (v_capacity v) n) else replace h v n
  end.
