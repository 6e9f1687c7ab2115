(** Model of array packing, vayesta/core/helper.py:16-91. *)
From Coq Require Import List NArith.
Import ListNotations.

(** Memory unit: four bytes. A [word] is one element of the packed float64 array (eight bytes, little endian).
    Simplification: element types are multiples of four bytes; one- and two-byte types are not modelled. *)
Definition half := N.
Definition word := (half * half)%type.

(** numpy view of a word as a (non-negative) 64-bit integer and back. *)
Definition enc (n : N) : word := (N.modulo n (2 ^ 32), N.div n (2 ^ 32))%N.
Definition dec (w : word) : N := (fst w + 2 ^ 32 * snd w)%N.

(** Element types with their numpy type characters. *)
Inductive dtype := Float64 | Int64 | Complex128 | Float32.

(** Size of an element in units of four bytes. *)
Definition itemsize (dt : dtype) : nat :=
  match dt with Float64 | Int64 => 2 | Complex128 => 4 | Float32 => 1 end.

(** [get_dtype_int] for an array, vayesta/core/helper.py:19-23: character code of 'd', 'l', 'D', 'f'. *)
Definition get_dtype_int (dt : dtype) : N :=
  match dt with Float64 => 100 | Int64 => 108 | Complex128 => 68 | Float32 => 102 end%N.

(** [get_dtype], vayesta/core/helper.py:26-31: outer None is an exception (unknown type), inner None the code 0. *)
Definition get_dtype (n : N) : option (option dtype) :=
  match n with
  | 0 => Some None
  | 100 => Some (Some Float64)
  | 108 => Some (Some Int64)
  | 68 => Some (Some Complex128)
  | 102 => Some (Some Float32)
  | _ => None
  end%N.

(** An array: element type, shape and its bytes in C order, grouped in units of four bytes. *)
Record array := { a_dtype : dtype; a_shape : list N; a_data : list half }.

(** [np.prod(shape)]: the number of elements. *)
Definition prod (shape : list N) : N := fold_right N.mul 1%N shape.

Inductive result (A : Type) := Ok (a : A) | Error.
Arguments Ok {A}. Arguments Error {A}.

(** [array.view(float)]: eight-byte words of a flat buffer; fails if the size is no multiple of eight bytes. *)
Fixpoint view_words (l : list half) : result (list word) :=
  match l with
  | [] => Ok []
  | a :: b :: l' => match view_words l' with Ok w => Ok ((a, b) :: w) | Error => Error end
  | [_] => Error
  end.

Fixpoint view_halves (l : list word) : list half :=
  match l with [] => [] | (a, b) :: l' => a :: b :: view_halves l' end.

(** [pack_metadata] with its default maxdim=8, vayesta/core/helper.py:34-45; Error is NotImplementedError. *)
Definition pack_metadata (a : option array) : result (list word) :=
  match a with
  | None => Ok (map enc (0%N :: 0%N :: repeat 0%N 8))
  | Some a =>
      if Nat.ltb 8 (length (a_shape a)) then Error
      else Ok (map enc (get_dtype_int (a_dtype a) :: N.of_nat (length (a_shape a))
                        :: a_shape a ++ repeat 0%N (8 - length (a_shape a))))
  end.

(** The local function [pack], vayesta/core/helper.py:60-65.  Simplification: the packed type is the default float64.
    The argument maxdim of [pack_arrays] is never used (vayesta/core/helper.py:55,61), so it is absent here. *)
Definition pack (a : option array) : result (list word) :=
  match pack_metadata a with
  | Error => Error
  | Ok metadata =>
      match a with
      | None => Ok metadata
      | Some a => match view_words (a_data a) with Ok w => Ok (metadata ++ w) | Error => Error end
      end
  end.

Fixpoint pack_list (l : list (option array)) : result (list word) :=
  match l with
  | [] => Ok []
  | a :: l' => match pack a, pack_list l' with Ok w, Ok ws => Ok (w ++ ws) | _, _ => Error end
  end.

(** [pack_arrays], vayesta/core/helper.py:55-70; np.hstack of no arrays raises. *)
Definition pack_arrays (l : list (option array)) : result (list word) :=
  match l with [] => Error | _ => pack_list l end.

(** One turn of the loop at vayesta/core/helper.py:79-90 on a non-empty buffer: the element and the rest.
    [unpack_metadata] is called with its default maxdim=8 (vayesta/core/helper.py:48-52,83). *)
Definition unpack_one (maxdim : nat) (packed : list word) : result (option array * list word) :=
  let metadata := map dec (firstn (8 + 2) (firstn (maxdim + 2) packed)) in
  let rest := skipn (maxdim + 2) packed in
  match metadata with
  | c :: ndim :: shape =>
      match get_dtype c with
      | None => Error
      | Some None => Ok (None, rest)
      | Some (Some dt) =>
          let shape := firstn (N.to_nat ndim) shape in
          let size := prod shape in
          let bytes := view_halves (firstn (N.to_nat size) rest) in
          (* array.view(dtype).reshape(shape) raises unless the sizes agree *)
          if N.eqb (N.of_nat (length bytes)) (N.of_nat (itemsize dt) * size)
          then Ok (Some {| a_dtype := dt; a_shape := shape; a_data := bytes |}, skipn (N.to_nat size) rest)
          else Error
      end
  | _ => Error
  end.

(** [unpack_arrays], vayesta/core/helper.py:73-91.  Every turn removes at least one word, the fuel is the buffer length. *)
Fixpoint unpack_loop (fuel : nat) (maxdim : nat) (packed : list word) : result (list (option array)) :=
  match packed, fuel with
  | [], _ => Ok []
  | _, 0 => Error
  | _, S fuel' =>
      match unpack_one maxdim packed with
      | Error => Error
      | Ok (a, rest) => match unpack_loop fuel' maxdim rest with Ok l => Ok (a :: l) | Error => Error end
      end
  end.
Definition unpack_arrays (maxdim : nat) (packed : list word) : result (list (option array)) :=
  unpack_loop (length packed) maxdim packed.
