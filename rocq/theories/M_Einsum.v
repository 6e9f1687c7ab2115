(** Model of the decorated-subscript replacement of [einsum], vayesta/core/util.py:259-280. *)
From Coq Require Import List Arith Bool Ascii.
Import ListNotations.

(** Characters are their code points. [string.ascii_letters]: codes 97-122 and 65-90. *)
Definition char := nat.
Definition is_letter (c : char) : bool := ((97 <=? c) && (c <=? 122)) || ((65 <=? c) && (c <=? 90)).

(** The other characters of [keep], vayesta/core/util.py:265: " ,->.()[]{}". *)
Definition keep_symbols : list char := [32; 44; 45; 62; 46; 40; 41; 91; 93; 123; 125].
Definition is_keep (c : char) : bool := is_letter c || existsb (Nat.eqb c) keep_symbols.

(** All letters in sorted order ([sorted(set(string.ascii_letters))]): upper case first. *)
Definition letters : list char := seq 65 26 ++ seq 97 26.

(** [free], vayesta/core/util.py:264. *)
Definition free_letters (subscripts : list char) : list char :=
  filter (fun c => negb (existsb (Nat.eqb c) subscripts)) letters.

Inductive result :=
| Ok (out : list char)
| ValueError
| IndexError.

(** The dictionary [replaced]: keys are two-character strings (letter, decoration). *)
Definition dict := list ((char * char) * char).
Fixpoint lookup (k : char * char) (d : dict) : option char :=
  match d with
  | [] => None
  | (k', v) :: d' => if (fst k =? fst k') && (snd k =? snd k') then Some v else lookup k d'
  end.

(** [l.pop()]: last element and the rest. *)
Definition pop (l : list char) : option (list char * char) :=
  match rev l with
  | [] => None
  | x :: r => Some (rev r, x)
  end.

(** The loop at vayesta/core/util.py:268-279.  [out] is [subscripts_out] in reverse order. *)
Fixpoint loop (todo : list char) (free : list char) (replaced : dict) (out : list char) : result :=
  match todo with
  | [] => Ok (rev out)
  | c :: todo' =>
      if is_keep c then loop todo' free replaced (c :: out)
      else
        match out with
        | [] => ValueError           (* last = "%", not a letter *)
        | last :: out' =>
            if is_letter last then
              match lookup (last, c) replaced with
              | Some v => loop todo' free replaced (v :: out')
              | None =>
                  match pop free with
                  | None => IndexError
                  | Some (free', v) => loop todo' free' (((last, c), v) :: replaced) (v :: out')
                  end
              end
            else ValueError
        end
  end.

(** [_einsum_replace_decorated_subscripts], vayesta/core/util.py:259-280. *)
Definition replace_decorated_subscripts (subscripts : list char) : result :=
  loop subscripts (free_letters subscripts) [] [].
