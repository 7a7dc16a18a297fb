(** Model of how DOF data travels through a message buffer.

    Modelled code:
    - dune/pdelab/common/polymorphicbufferwrapper.hh 30-104 (bytes of plain data, rank of the sender)
    - dune/pdelab/gridfunctionspace/genericdatahandle.hh 22-64 (DOFDataCommunicationDescriptor::size),
      166-195 and 211-265 (GFSDataHandle::gather and scatter with a wrapped buffer),
      310-413 (DataGatherScatter; DataEntityGatherScatter 426-520 and DataContainerIndexGatherScatter 535-630 repeat
      the same code and differ only in the arguments of the functor)
    - dune/pdelab/gridfunctionspace/entityindexcache.hh 48-80 (offsets)

    Simplifications: offsets are natural numbers, so the differences of offsets do not wrap around (they are partial sums
    of sizes, datahandleprovider.hh 54-75); the local view is the list of its values and commit() is a flag. *)
From Coq Require Import Init.Byte.
From Verif Require Import Common.

(** How values of a C++ type are laid out: sizeof and the bytes. *)
Record codec (A : Type) := Codec { width : nat; encode : A -> list byte; decode : list byte -> A }.
Arguments width {A} c.
Arguments encode {A} c a.
Arguments decode {A} c l.

(** polymorphicbufferwrapper.hh 43-50: all bytes of the value. *)
Definition write {A} (c : codec A) (buf : list byte) (a : A) : list byte := buf ++ encode c a.
(** polymorphicbufferwrapper.hh 52-59: the next sizeof(T) bytes; reading past the end is undefined. *)
Definition read {A} (c : codec A) (buf : list byte) : res (A * list byte) :=
  if length buf <? width c then UB else Ok (decode c (firstn (width c) buf), skipn (width c) buf).

Section handle.
  Variable A : Type.
  Variables (value : codec A) (size : codec nat) (rank : codec nat).
  Variable transmit_rank : bool.      (** CommunicationDescriptor::transmitRank() *)
  Variable send_leaf_sizes : bool.    (** gfs.sendLeafSizes() *)
  Variable leaf_count : nat.

  (** entityindexcache.hh: offsets()[0..leaf_count] from the sizes of the leaves on the entity. *)
  Fixpoint offsets_from (acc : nat) (sizes : list nat) : list nat :=
    match sizes with
    | [] => [acc]
    | s :: sizes => acc :: offsets_from (acc + s) sizes
    end.
  Definition offsets (sizes : list nat) : list nat := offsets_from 0 sizes.

  (** genericdatahandle.hh 56-62: size(e), in bytes, for an entity with [n] DOFs. *)
  Definition message_size (n : nat) : nat :=
    n * width value + (if send_leaf_sizes then leaf_count * width size else 0) + (if transmit_rank then width rank else 0).

  (** genericdatahandle.hh 166-195 with 320-325: rank, offsets()[1..], values. *)
  Definition gather (my_rank : nat) (offs : list nat) (view : list A) (buf : list byte) : list byte :=
    let buf := if transmit_rank then write rank buf my_rank else buf in
    let buf := if send_leaf_sizes then fold_left (write size) (tl offs) buf else buf in
    fold_left (write value) view buf.

  (** [n] values are read and forgotten. *)
  Fixpoint drain (n : nat) (buf : list byte) : res (list byte) :=
    match n with
    | O => Ok buf
    | S n => let* (_, buf) := read value buf in drain n buf
    end.

  (** the functor's scatter() for [n] positions of the view from [i]. *)
  Variable op : A -> A -> A.
  Fixpoint scatter_range (n i : nat) (buf : list byte) (view : list A) : res (list byte * list A) :=
    match n with
    | O => Ok (buf, view)
    | S n =>
        let* (x, buf) := read value buf in
        match nth_error view i with
        | None => UB
        | Some v => scatter_range n (S i) buf (upd i (op v x) view)
        end
    end.

  (** genericdatahandle.hh 328-352.  The loop of the last branch runs over the local size, which is 0 there. *)
  Definition scatter_same (contained : bool) (n : nat) (buf : list byte) (view : list A)
    : res (list byte * list A * bool) :=
    if contained then
      if negb (length view =? n) then Throw
      else let* (buf, view) := scatter_range (length view) 0 buf view in Ok (buf, view, true)
    else
      if negb (length view =? 0) then Throw
      else let* buf := drain (length view) buf in Ok (buf, view, false).

  (** genericdatahandle.hh 366-398: one block of the loop.  State: remote_i, local_i, buffer, view, needs_commit. *)
  Definition scatter_block (st : nat * nat * list byte * list A * bool) (b : nat * nat)
    : res (nat * nat * list byte * list A * bool) :=
    let '(remote_i, local_i, buf, view, commit) := st in
    let '(remote_off, local_off) := b in
    if remote_off =? remote_i then Ok (remote_i, local_off, buf, view, commit)
    else if local_off =? local_i then
      let* buf := drain (remote_off - remote_i) buf in
      Ok (Nat.max remote_i remote_off, local_i, buf, view, commit)
    else if negb (remote_off - remote_i =? local_off - local_i) then Throw
    else
      let* (buf, view) := scatter_range (local_off - local_i) local_i buf view in
      Ok (remote_off, local_off, buf, view, true).

  (** genericdatahandle.hh 355-413 *)
  Definition scatter_blocks (contained : bool) (remote_offs local_offs : list nat) (buf : list byte) (view : list A)
    : res (list byte * list A * bool) :=
    if contained then
      let* (_, _, buf, view, commit) :=
        foldM scatter_block (combine (tl remote_offs) (tl local_offs)) (0, 0, buf, view, false) in
      Ok (buf, view, commit)
    else
      if negb (length view =? 0) then Throw
      else let* buf := drain (last remote_offs 0) buf in Ok (buf, view, false).

  (** genericdatahandle.hh 230-239: remote_offsets[1..]. *)
  Fixpoint read_sizes (n : nat) (buf : list byte) : res (list nat * list byte) :=
    match n with
    | O => Ok ([], buf)
    | S n => let* (s, buf) := read size buf in let* (l, buf) := read_sizes n buf in Ok (s :: l, buf)
    end.

  (** genericdatahandle.hh 211-265: [n] is the number of bytes the sender announced.  Result: rest of the buffer, view,
      needs_commit, senderRank(). *)
  Definition scatter (contained : bool) (n : nat) (local_offs : list nat) (buf : list byte) (view : list A)
    : res (list byte * list A * bool * option nat) :=
    let* (sender, buf) :=
      if transmit_rank then let* (r, buf) := read rank buf in Ok (Some r, buf) else Ok (None, buf) in
    let* (buf, view, commit) :=
      if send_leaf_sizes then
        let* (offs, buf) := read_sizes leaf_count buf in
        scatter_blocks contained (0 :: offs) local_offs buf view
      else
        let n := if transmit_rank then n - width rank else n in
        scatter_same contained (n / width value) buf view in
    Ok (buf, view, commit, sender).
End handle.
