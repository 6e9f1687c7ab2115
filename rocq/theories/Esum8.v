(** Tensors with eight indices for the normaliser of Esum, and symmetry groups from generators. (Nothing of /repo is modelled in this file.) *)
From Coq Require Import List Arith Bool Lia Ring.
From Verif Require Import Alg Esum.
Import ListNotations.

(** ** Groups of signed permutations generated by given ones *)
Definition eqv (a b : list nat * bool) : bool := eql Nat.eqb (fst a) (fst b) && Bool.eqb (snd a) (snd b).
Definition cmpv (v g : list nat * bool) : list nat * bool := (perm O (fst g) (fst v), xorb (snd v) (snd g)).
Definition step (gens front acc : symt) : symt :=         (* products of front with the generators that are not in acc *)
  fold_right (fun v new => fold_right (fun g new => let c := cmpv v g in if existsb (eqv c) acc || existsb (eqv c) new then new else c :: new) new gens) [] front.
Fixpoint closure (n : nat) (gens front acc : symt) : symt :=
  match n with O => acc | S n => match step gens front acc with [] => acc | new => closure n gens new (new ++ acc) end end.
Definition okgens (n : nat) (l : symt) : bool := forallb (fun v => (length (fst v) =? n) && forallb (fun k => k <? n) (fst v)) l.
Section Group.
Context {K : cring}.
Add Ring Kr : (rth K).
Open Scope K_scope.
Variable t : list nat -> K.
Variable n : nat.
Definition ok1 (v : list nat * bool) : Prop := forall ix, length ix = n -> t ix = sign (snd v) * t (perm O (fst v) ix).
Lemma perm_len {A} (d : A) p l : length (perm d p l) = length p. Proof. apply map_length. Qed.
Lemma perm_perm p q (l : list nat) : Forall (fun k => (k < length p)%nat) q -> perm O q (perm O p l) = perm O (perm O q p) l.
Proof.
  intros H. unfold perm. rewrite map_map. apply map_ext_in. intros k Hk. rewrite Forall_forall in H. specialize (H k Hk).
  rewrite (nth_indep _ O (nth O l O)) by (rewrite map_length; auto). rewrite (map_nth (fun k => nth k l O)). reflexivity.
Qed.
Lemma sign_xor a b : sign (K := K) (xorb a b) = sign a * sign b.
Proof. destruct a, b; cbn; ring. Qed.
Lemma ok1_cmp v g : length (fst v) = n -> Forall (fun k => (k < n)%nat) (fst g) -> ok1 v -> ok1 g -> ok1 (cmpv v g).
Proof.
  intros L R Hv Hg ix E. unfold cmpv. cbn [fst snd]. rewrite (Hv ix E), (Hg (perm O (fst v) ix)) by (rewrite perm_len; auto). rewrite perm_perm by (rewrite L; auto). rewrite sign_xor. ring.
Qed.
Definition wf (v : list nat * bool) : Prop := length (fst v) = n /\ Forall (fun k => (k < n)%nat) (fst v) /\ ok1 v.
Lemma wf_cmp v g : wf v -> wf g -> wf (cmpv v g).
Proof.
  intros (L & R & Hv) (L' & R' & Hg). split; [|split].
  - cbn. rewrite perm_len. auto.
  - cbn. unfold perm. apply Forall_forall. intros k Hk. apply in_map_iff in Hk. destruct Hk as (j & <- & Hj). rewrite Forall_forall in R, R'. apply R, nth_In. rewrite L. apply R'. auto.
  - apply ok1_cmp; auto.
Qed.
Lemma wf_step1 acc v gens new : wf v -> Forall wf gens -> Forall wf new ->
  Forall wf (fold_right (fun g new => let c := cmpv v g in if existsb (eqv c) acc || existsb (eqv c) new then new else c :: new) new gens).
Proof. intros Hv G N. induction G as [|g gens Hg _ IHg]; cbn [fold_right]; auto. cbv zeta. destruct (_ || _); auto. constructor; auto. apply wf_cmp; auto. Qed.
Lemma wf_step gens front acc : Forall wf gens -> Forall wf front -> Forall wf (step gens front acc).
Proof. intros G L. unfold step. induction L as [|v l Hv _ IH]; cbn [fold_right]; [constructor|]. apply wf_step1; auto. Qed.
Lemma wf_closure k gens : Forall wf gens -> forall front acc, Forall wf front -> Forall wf acc -> Forall wf (closure k gens front acc).
Proof.
  intros G. induction k as [|k IH]; intros front acc L A; cbn [closure]; auto. pose proof (wf_step gens front acc G L) as S. destruct (step gens front acc) as [|v new]; auto. apply IH; auto. apply Forall_app; auto.
Qed.
Theorem ok_closure k gens : symok t gens -> okgens n gens = true -> symok t (closure k gens gens gens).
Proof.
  intros H O. assert (G : Forall wf gens).
  { unfold okgens in O. rewrite forallb_forall in O. unfold symok in H. rewrite Forall_forall in H |- *. intros v Hv. specialize (O v Hv). specialize (H v Hv). apply andb_true_iff in O. destruct O as [O1 O2]. apply Nat.eqb_eq in O1.
    split; [auto|split].
    - rewrite forallb_forall in O2. apply Forall_forall. intros j Hj. apply Nat.ltb_lt. auto.
    - intros ix E. apply H. lia. }
  pose proof (wf_closure k gens G gens gens G G) as C. unfold symok. eapply Forall_impl; [|exact C]. intros v (L & _ & Hv) ix E. apply Hv. lia.
Qed.
End Group.

Section Wrap8.
Context {K : cring}.
Add Ring Kr8 : (rth K).
Open Scope K_scope.
Definition w8 (f : nat -> nat -> nat -> nat -> nat -> nat -> nat -> nat -> K) : list nat -> K := fun l => match l with [i; j; k; m; n; o; p; q] => f i j k m n o p q | _ => 0 end.
End Wrap8.
Ltac e_reify8 half dims tens ctx e :=
  lazymatch e with
  | half => constr:(Eh)
  | r0 => constr:(E0)
  | r1 => constr:(E1)
  | radd ?a ?b => let x := e_reify8 half dims tens ctx a in let y := e_reify8 half dims tens ctx b in constr:(Eadd x y)
  | rsub ?a ?b => let x := e_reify8 half dims tens ctx a in let y := e_reify8 half dims tens ctx b in constr:(Esub x y)
  | rmul ?a ?b => let x := e_reify8 half dims tens ctx a in let y := e_reify8 half dims tens ctx b in constr:(Emul x y)
  | ropp ?a => let x := e_reify8 half dims tens ctx a in constr:(Eopp x)
  | Sum ?n ?f =>
      let s := e_pos n dims in
      let v := fresh "v" in
      let r := constr:(fun v : nat => ltac:(let b := eval cbv beta in (f v) in let r := e_reify8 half dims tens (v :: ctx) b in exact r)) in
      lazymatch r with fun _ => ?r' => constr:(Esum s r') end
  | ?t ?i ?j ?k ?m ?n ?o ?p ?q => let h := e_pos (w8 t) tens in let i := e_pos i ctx in let j := e_pos j ctx in let k := e_pos k ctx in let m := e_pos m ctx in let n := e_pos n ctx in let o := e_pos o ctx in
      let p := e_pos p ctx in let q := e_pos q ctx in constr:(Eat h [i; j; k; m; n; o; p; q])
  | ?t ?i ?j ?k ?m ?n ?o => let p := e_pos (w6 t) tens in let i := e_pos i ctx in let j := e_pos j ctx in let k := e_pos k ctx in let m := e_pos m ctx in let n := e_pos n ctx in let o := e_pos o ctx in constr:(Eat p [i; j; k; m; n; o])
  | ?t ?i ?j ?k ?m => let p := e_pos (w4 t) tens in let i := e_pos i ctx in let j := e_pos j ctx in let k := e_pos k ctx in let m := e_pos m ctx in constr:(Eat p [i; j; k; m])
  | ?t ?i ?j ?k => let p := e_pos (w3 t) tens in let i := e_pos i ctx in let j := e_pos j ctx in let k := e_pos k ctx in constr:(Eat p [i; j; k])
  | ?t ?i ?j => let p := e_pos (w2 t) tens in let i := e_pos i ctx in let j := e_pos j ctx in constr:(Eat p [i; j])
  | ?t ?i => let p := e_pos (w1 t) tens in let i := e_pos i ctx in constr:(Eat p [i])
  | ?t => let p := e_pos (w0 t) tens in constr:(Eat p (@nil nat))
  end.
Ltac esum8_with Hhalf S dims ctx k :=
  lazymatch type of Hhalf with
  | radd ?half _ = _ =>
    lazymatch type of S with
    | Forall2 _ ?tens ?syms =>
      lazymatch goal with
      | |- ?l = ?r =>
        let a := e_reify8 half dims tens ctx l in let b := e_reify8 half dims tens ctx r in
        k half dims tens syms ctx a b
      end
    end
  end.
Ltac esum8 Hhalf S dims ctx := esum8_with Hhalf S dims ctx ltac:(fun half dims tens syms ctx a b =>
  change (den half dims tens ctx a = den half dims tens ctx b); apply (esum_sound half Hhalf dims tens syms S); vm_compute; reflexivity).
Ltac eleft8 Hhalf S dims ctx := esum8_with Hhalf S dims ctx ltac:(fun half dims tens syms ctx a b =>
  let r := eval vm_compute in (leftover syms a b) in idtac r).
