(** Model of the fragmentation contexts: vayesta/core/fragmentation/fragmentation.py __enter__ (58-62), __exit__ (64-104),
    _create_fragment (173-196), rotational_symmetry / inversion_symmetry / mirror_symmetry (200-242), secondary_fragments
    (246-262), _create_secondary_fragments (264-296); create_symmetric_fragments (vayesta/core/qemb/qemb.py 805-975);
    Fragment.copy (vayesta/core/qemb/fragment.py 610-623).
    The user's code is a program [prog]; [Try p] is "try: p / except: pass" of the user.
    Simplifications: the space of fragment orbitals is a number [site]; two spaces overlap iff they are equal; a symmetry
    operation maps sites to sites; bath options are the three thresholds; of the flags is_envelop and is_secfrag.
    Not modelled: orbital coefficients (C41), names, log messages, the mean-field symmetry check (one oracle), MPI ranks. *)
From Coq Require Import List Arith ZArith QArith Lia Bool.
From Verif Require Import M_Symop.
Import ListNotations.
Open Scope nat_scope.

(** bath_options['threshold' / 'threshold_occ' / 'threshold_vir'] *)
Record thresholds := TH { th : option Q; th_occ : option Q; th_vir : option Q }.

(** qemb/fragment.py 80-92, 96-; ewf/fragment.py 48.  [solver]: 0 the solver of the embedding, else that of the secondary
    fragments; is_envelop is in the state since it is changed later *)
Record frag := F { fid : nat; site : nat; parent : option nat; wf_factor : option Z; bath : thresholds; solver : nat; is_secfrag : bool }.

(** rotational (order), inversion and mirror (order 2) contexts *)
Inductive prog :=
  | Skip | Seq (p q : prog) | Raise | Try (p : prog)
  | Add (s : nat) (w : option Z) (b : thresholds)
  | Sym (tag order : nat) (p : prog)
  | Sec (bno_threshold : option Q) (factor : Q) (sec_solver : nat) (p : prog).

Record state := St { frags : list frag; sym_register : list (list frag); secfrag_register : list (list frag); next_id : nat; envelop : nat -> bool }.

Section R.
(** sym_op(c_frag) of the operation number [k] of a symmetry, and the outcome of the mean-field check *)
Variable op : nat -> nat -> nat -> nat.
Variable mf_ok : nat -> nat -> bool.

(** qemb.py 939-951: the fragment made from [p] by operation [k] *)
Definition sym_copy (tag k id : nat) (p : frag) : frag :=
  F id (op tag k (site p)) (Some (fid p)) (wf_factor p) (bath p) (solver p) (is_secfrag p).

(** qemb.py 907-973, the loop over the fragments for one operation: None if an exception is raised.  The mean field is
    checked only for the first operation (956). *)
Fixpoint sym_row (tag k id : nat) (l : list frag) : nat * option (list frag) :=
  match l with
  | [] => (id, Some [])
  | p :: r =>
      if Nat.eqb (op tag k (site p)) (site p) then (id, None)
      else if Nat.eqb k 1 && negb (mf_ok tag (site p)) then (S id, None)
      else match sym_row tag k (S id) r with
           | (n, Some l') => (n, Some (sym_copy tag k id p :: l'))
           | (n, None) => (n, None)
           end
  end.

(** The loop over the operations ks (891): ftree is kept as rows, one for every operation *)
Fixpoint sym_rows (tag : nat) (ks : list nat) (id : nat) (l : list frag) : nat * option (list (list frag)) :=
  match ks with
  | [] => (id, Some [])
  | k :: r => match sym_row tag k id l with
              | (n, Some row) => match sym_rows tag r n l with (n', Some rows) => (n', Some (row :: rows)) | (n', None) => (n', None) end
              | (n, None) => (n, None)
              end
  end.

(** [fx for flist in ftree for fx in flist[1:]] (974): for every fragment, its copies *)
Definition by_parent (l : list frag) (rows : list (list frag)) : list frag :=
  flat_map (fun j => flat_map (fun row => match nth_error row j with Some f => [f] | None => [] end) rows) (seq 0 (length l)).

(** is_envelop of a new copy is that of its parent (949) *)
Definition copy_env (env : nat -> bool) (l : list frag) : nat -> bool :=
  fun i => match find (fun f => Nat.eqb (fid f) i) l with
           | Some f => match parent f with Some p => env p | None => env i end
           | None => env i
           end.

(** fragmentation.py 274-285 *)
Definition scale (factor : Q) (x : option Q) : option Q := match x with Some y => Some (y * factor)%Q | None => None end.
Definition sec_bath (bno : option Q) (factor : Q) (b : thresholds) : thresholds :=
  match bno with
  | Some t => TH (Some t) None None
  | None => TH (scale factor (th b)) (scale factor (th_occ b)) (scale factor (th_vir b))
  end.

(** -(fx.opts.wf_factor or 1), fragmentation.py 289 *)
Definition minus_factor (w : option Z) : Z := (- match w with Some x => if Z.eqb x 0 then 1 else x | None => 1 end)%Z.

(** fragmentation.py 264-296; None for NotImplementedError (a fragment with a sym_parent) *)
Fixpoint create_secondary (bno : option Q) (factor : Q) (sv : nat) (id : nat) (env : nat -> bool) (l : list frag) : nat * (nat -> bool) * option (list frag) :=
  match l with
  | [] => (id, env, Some [])
  | f :: r =>
      match parent f with
      | Some _ => (id, env, None)
      | None =>
          let plus := F id (site f) None (wf_factor f) (sec_bath bno factor (bath f)) sv true in
          let minus := F (S id) (site f) None (Some (minus_factor (wf_factor f))) (bath f) sv true in
          let env' := upd (upd (upd env id true) (S id) false) (fid f) false in
          match create_secondary bno factor sv (S (S id)) env' r with
          | (n, e, Some l') => (n, e, Some (plus :: minus :: l'))
          | (n, e, None) => (n, e, None)
          end
      end
  end.

(** self.sym_register.pop() *)
Definition pop {A} (d : A) (l : list A) : A * list A := (last l d, removelast l).

(** fragmentation.py 173-196, 198-262; false: an exception is propagating *)
Fixpoint run (p : prog) (s : state) : state * bool :=
  match p with
  | Skip => (s, true)
  | Seq p q => match run p s with (s', true) => run q s' | r => r end
  | Raise => (s, false)
  | Try p => let '(s', _) := run p s in (s', true)
  | Add x w b =>
      let f := F (next_id s) x None w b 0 false in
      (St (frags s ++ [f]) (map (fun l => l ++ [f]) (sym_register s))
          (match secfrag_register s with [] => [] | l :: r => (l ++ [f]) :: r end) (S (next_id s)) (upd (envelop s) (next_id s) true), true)
  | Sym tag order p =>
      match secfrag_register s with
      | _ :: _ => (s, false)
      | [] =>
          match run p (St (frags s) (sym_register s ++ [[]]) [] (next_id s) (envelop s)) with
          | (s', false) => (s', false)
          | (s', true) =>
              let '(l, reg) := pop [] (sym_register s') in
              match sym_rows tag (seq 1 (order - 1)) (next_id s') l with
              | (n, None) => (St (frags s') reg (secfrag_register s') n (envelop s'), false)
              | (n, Some rows) =>
                  let new := by_parent l rows in
                  (St (frags s' ++ new) (map (fun r => r ++ new) reg) (secfrag_register s') n (copy_env (envelop s') new), true)
              end
          end
      end
  | Sec bno factor sv p =>
      match secfrag_register s with
      | _ :: _ => (s, false)
      | [] =>
          match run p (St (frags s) (sym_register s) [[]] (next_id s) (envelop s)) with
          | (s', false) => (s', false)
          | (s', true) =>
              let '(l, reg) := pop [] (secfrag_register s') in
              match create_secondary bno factor sv (next_id s') (envelop s') l with
              | (n, e, None) => (St (frags s') (sym_register s') reg n e, false)
              | (n, e, Some new) => (St (frags s' ++ new) (map (fun r => r ++ new) (sym_register s')) reg n e, true)
              end
          end
      end
  end.

(** The fragmentation as a context, lines 58-104: [emb] the fragments of the embedding, [indent] the log level; a
    translation symmetry is (tag, number of translations) *)
Definition fragmentation (translation : option (nat * nat)) (p : prog) (s : state) (emb : list frag) (indent : Z)
  : state * list frag * Z * bool :=
  match run p s with
  | (s', false) => (s', emb, (indent + 1)%Z, false)
  | (s', true) =>
      match translation with
      | None => (s', emb ++ frags s', indent, true)
      | Some (tag, n) =>
          match sym_rows tag (seq 1 (n - 1)) (next_id s') (frags s') with
          | (i, None) => (St (frags s') (sym_register s') (secfrag_register s') i (envelop s'), emb, (indent + 1)%Z, false)
          | (i, Some rows) =>
              let new := by_parent (frags s') rows in
              (St (frags s' ++ new) (sym_register s') (secfrag_register s') i (copy_env (envelop s') new), emb ++ frags s' ++ new, indent, true)
          end
      end
  end.
End R.
