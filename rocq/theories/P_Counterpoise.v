(** C46: atoms of counterpoise calculations. *)
From Coq Require Import List ZArith Bool Arith Lia.
From Verif Require Import Alg Ord M_Counterpoise.
Import ListNotations.

Section CP.
Context (R : oring).
Add Ring Rr : (rth (oc R)).
Open Scope K_scope.
Variable norm : pt R -> R.
Variable natm : nat.
Variable symbol : nat -> bool * nat.
Variable coord : nat -> pt R.
Variable dimension : nat.
Variable lattice : option (nat -> pt R).
Variable bohr : R.
Notation make_cp := (make_cp R norm natm symbol coord dimension lattice bohr).

Lemma eqb_spec (x y : R) : eqb R x y = true <-> x = y.
Proof.
  unfold eqb. split.
  - rewrite andb_true_iff, !negb_true_iff. intros [H1 H2]. destruct (ltb_total R x y) as [H|[H|H]]; auto; congruence.
  - intros ->. rewrite ltb_irrefl. reflexivity.
Qed.

(** A neighbouring cell: only periodic directions, at most [n] cells away. *)
Definition neighbour (n : nat) (rx ry rz : Z) : Prop :=
  (Z.abs rx <= (if (Nat.leb 1 dimension && Nat.leb dimension 3)%bool then Z.of_nat n else 0) /\ Z.abs ry <= (if (Nat.leb 2 dimension && Nat.leb dimension 3)%bool then Z.of_nat n else 0)
   /\ Z.abs rz <= (if (Nat.leb 3 dimension && Nat.leb dimension 3)%bool then Z.of_nat n else 0))%Z.

Lemma around_spec n z : In z (around n) <-> (Z.abs z <= Z.of_nat n)%Z.
Proof.
  unfold around. rewrite in_map_iff. split.
  - intros (k & <- & H). apply in_seq in H. lia.
  - intros H. exists (Z.to_nat (z + Z.of_nat n)). rewrite in_seq. lia.
Qed.

Lemma images_spec n rx ry rz : (Z.abs rx <= Z.of_nat (images dimension n 0) /\ Z.abs ry <= Z.of_nat (images dimension n 1) /\ Z.abs rz <= Z.of_nat (images dimension n 2))%Z <-> neighbour n rx ry rz.
Proof.
  unfold images, neighbour. destruct dimension as [|[|[|[|k]]]]; cbn [Nat.eqb Nat.ltb Nat.leb andb]; lia.
Qed.

Lemma cells_spec n rx ry rz a : In (rx, ry, rz, a) (cells_atoms natm dimension n) <-> neighbour n rx ry rz /\ (a < natm)%nat.
Proof.
  rewrite <- images_spec. unfold cells_atoms. rewrite in_flat_map. split.
  - intros (x & Hx & H). apply in_flat_map in H. destruct H as (y & Hy & H). apply in_flat_map in H. destruct H as (z & Hz & H). apply in_map_iff in H.
    destruct H as (b & E & Hb). injection E as -> -> -> ->. rewrite around_spec in *. apply in_seq in Hb. lia.
  - intros ((H1 & H2 & H3) & H4). exists rx. rewrite around_spec. split; auto. apply in_flat_map. exists ry. rewrite around_spec. split; auto.
    apply in_flat_map. exists rz. rewrite around_spec. split; auto. apply in_map_iff. exists a. rewrite in_seq. split; auto. lia.
Qed.

Lemma NoDup_flat {A B} (f : A -> list B) (key : B -> A) : forall l, NoDup l -> (forall x y, In x l -> In y (f x) -> key y = x) -> (forall x, In x l -> NoDup (f x)) -> NoDup (flat_map f l).
Proof.
  induction l as [|x l IH]; intros H1 H2 H3; simpl; [constructor|]. inversion H1; subst.
  assert (I : NoDup (flat_map f l)) by (apply IH; auto; [intros; apply H2; simpl; auto|intros; apply H3; simpl; auto]).
  assert (J : NoDup (f x)) by (apply H3; simpl; auto).
  assert (D : forall y, In y (f x) -> ~ In y (flat_map f l)).
  { intros y Hy Hin. apply in_flat_map in Hin. destruct Hin as (z & Hz & Hy'). assert (key y = x) by (apply H2; simpl; auto). assert (key y = z) by (apply H2; simpl; auto). subst. congruence. }
  revert J D. generalize (f x). induction l0 as [|b l0 IHl]; simpl; auto. intros J D. inversion J; subst. constructor; [|apply IHl; auto].
  rewrite in_app_iff. intros [|]; [auto|]. eapply D; eauto.
Qed.

Lemma around_NoDup n : NoDup (around n).
Proof. unfold around. apply FinFun.Injective_map_NoDup; [intros x y; lia|apply seq_NoDup]. Qed.

Lemma cells_NoDup n : NoDup (cells_atoms natm dimension n).
Proof.
  unfold cells_atoms. apply NoDup_flat with (key := fun t => fst (fst (fst t))); [apply around_NoDup| |].
  - intros x y _ H. apply in_flat_map in H. destruct H as (? & _ & H). apply in_flat_map in H. destruct H as (? & _ & H). apply in_map_iff in H. destruct H as (? & <- & _). reflexivity.
  - intros rx _. apply NoDup_flat with (key := fun t => snd (fst (fst t))); [apply around_NoDup| |].
    + intros x y _ H. apply in_flat_map in H. destruct H as (? & _ & H). apply in_map_iff in H. destruct H as (? & <- & _). reflexivity.
    + intros ry _. apply NoDup_flat with (key := fun t => snd (fst t)); [apply around_NoDup| |].
      * intros x y _ H. apply in_map_iff in H. destruct H as (? & <- & _). reflexivity.
      * intros rz _. apply FinFun.Injective_map_NoDup; [intros x y E; now injection E|apply seq_NoDup].
Qed.

Definition amat (atom : nat) : nat -> pt R := match lattice with Some a => a | None => fun _ => coord atom end.

(** The position of atom [a] in the cell (rx, ry, rz): the lattice vectors are the rows of the cell matrix. *)
Definition position (am : nat -> pt R) (rx ry rz : Z) (a : nat) : pt R :=
  let along (comp : pt R -> R) := comp (coord a) + zK R rx * comp (am 0%nat) + zK R ry * comp (am 1%nat) + zK R rz * comp (am 2%nat) in
  (along (fun p => fst (fst p)), along (fun p => snd (fst p)), along (fun p => snd p)).

Lemma place_position am rx ry rz a : place R coord am (rx, ry, rz, a) = position am rx ry rz a.
Proof.
  unfold place, position, padd, pscale. destruct (coord a) as [[x y] z], (am 0%nat) as [[x0 y0] z0], (am 1%nat) as [[x1 y1] z1], (am 2%nat) as [[x2 y2] z2].
  destruct (Z.eqb_spec (Z.abs rx + Z.abs ry + Z.abs rz) 0).
  - assert (rx = 0 /\ ry = 0 /\ rz = 0)%Z as (-> & -> & ->) by lia. simpl. apply f_equal2; [apply f_equal2|]; ring.
  - simpl. apply f_equal2; [apply f_equal2|]; ring.
Qed.

(** The atom itself comes first, as it is.  Then follow, each once, as ghosts, exactly the other atoms of the system and
    of its neighbouring cells whose distance is at most the radius (in Angstrom). *)
Theorem C46_atoms : forall atom rmax nimages u l r, rmax <> 0 -> convert R norm lattice bohr rmax u = Atoms [r] -> r <> 0 -> make_cp atom rmax nimages u = Atoms l ->
  exists cells, l = (symbol atom, coord atom) :: map (fun x => let '(rx, ry, rz, a) := x in ((true, snd (symbol a)), position (amat atom) rx ry rz a)) cells /\ NoDup cells /\
  forall rx ry rz a, In (rx, ry, rz, a) cells <-> neighbour nimages rx ry rz /\ (a < natm)%nat /\ ~ (rx = 0 /\ ry = 0 /\ rz = 0 /\ a = atom)%Z
     /\ le (norm (psub R (position (amat atom) rx ry rz a) (coord atom))) r.
Proof.
  intros atom rmax nimages u l r Hr Hc Hr0 H. unfold M_Counterpoise.make_cp in H.
  destruct (eqb R rmax 0) eqn:E0; [apply eqb_spec in E0; contradiction|]. rewrite Hc in H. fold (amat atom) in H. injection H as <-.
  set (keep := fun x : Z * Z * Z * nat => let '(rx, ry, rz, a) := x in (negb (Z.eqb (Z.abs rx + Z.abs ry + Z.abs rz) 0 && Nat.eqb a atom) && leb (norm (psub R (place R coord (amat atom) x) (coord atom))) r)%bool).
  assert (P : forall x, place R coord (amat atom) x = let '(rx, ry, rz, a) := x in position (amat atom) rx ry rz a) by (intros [[[rx ry] rz] a]; apply place_position).
  exists (filter keep (cells_atoms natm dimension nimages)). split; [f_equal|split].
  - erewrite (map_ext _ (fun x => ((true, snd (symbol (snd x))), place R coord (amat atom) x))) by (intros [[[rx ry] rz] a]; cbn [snd]; now rewrite place_position).
    induction (cells_atoms natm dimension nimages) as [|[[[rx ry] rz] a] cs IH]; auto. cbn [flat_map filter]. rewrite IH.
    unfold keep at 2. destruct (Z.eqb (Z.abs rx + Z.abs ry + Z.abs rz) 0 && Nat.eqb a atom)%bool; [reflexivity|].
    destruct (eqb R r 0) eqn:E1; [apply eqb_spec in E1; contradiction|]. cbn [orb negb andb]. destruct (leb _ r); reflexivity.
  - apply NoDup_filter, cells_NoDup.
  - intros rx ry rz a. rewrite <- place_position, filter_In, cells_spec. unfold keep. rewrite andb_true_iff. fold (le (norm (psub R (place R coord (amat atom) (rx, ry, rz, a)) (coord atom))) r).
    assert (X : negb (Z.eqb (Z.abs rx + Z.abs ry + Z.abs rz) 0 && Nat.eqb a atom)%bool = true <-> ~ (rx = 0 /\ ry = 0 /\ rz = 0 /\ a = atom)%Z).
    { destruct (Z.eqb_spec (Z.abs rx + Z.abs ry + Z.abs rz) 0); destruct (Nat.eqb_spec a atom); cbn [andb negb]; split; try discriminate; auto; intros; try lia. }
    rewrite X. tauto.
Qed.

(** Without a radius there are no ghosts. *)
Theorem C46_no_radius : forall atom nimages u, make_cp atom 0 nimages u = Atoms [(symbol atom, coord atom)].
Proof. intros. unfold M_Counterpoise.make_cp. replace (eqb R 0 0) with true; auto. symmetry. now apply eqb_spec. Qed.

(** Without periodic boundary conditions there are no images. *)
Theorem C46_open : forall n rx ry rz, dimension = 0%nat -> (neighbour n rx ry rz <-> rx = 0 /\ ry = 0 /\ rz = 0)%Z.
Proof. intros n rx ry rz E. unfold neighbour. rewrite E. simpl. lia. Qed.

(** The radius in units of a lattice vector: the digit counts from zero. *)
Theorem C46_units : forall rmax, convert R norm lattice bohr rmax UA = Atoms [rmax] /\ convert R norm lattice bohr rmax UB = Atoms [rmax * bohr] /\
  forall a k, lattice = Some a -> convert R norm lattice bohr rmax (Ua (Some k)) = (if Nat.ltb k 3 then Atoms [rmax * norm (a k)] else IndexError).
Proof. intros rmax. split; [reflexivity|split; [reflexivity|]]. intros a k E. unfold convert. rewrite E. reflexivity. Qed.
End CP.

(** Finding: documented units are 'a1', 'a2', 'a3' for the three lattice vectors, but 'a1' takes the length of the second
    vector and 'a3' fails. *)
Theorem C46_unit_refuted : exists (norm : pt ZO -> ZO) (lat : nat -> pt ZO), 
  convert ZO norm (Some lat) 1%Z 1%Z (Ua (Some 1%nat)) = Atoms [norm (lat 1%nat)] /\ norm (lat 1%nat) <> norm (lat 0%nat) /\ convert ZO norm (Some lat) 1%Z 1%Z (Ua (Some 3%nat)) = IndexError.
Proof.
  exists (fun p => let '(a, b, c) := p in (Z.abs a + Z.abs b + Z.abs c)%Z). exists (fun k => match k with O => (5, 0, 0)%Z | S O => (0, 7, 0)%Z | _ => (0, 0, 9)%Z end).
  split; [reflexivity|]. split; [|reflexivity]. simpl. discriminate.
Qed.

(** Finding: 'a...' for a molecule without lattice vectors is a NameError. *)
Theorem C46_molecule_refuted : forall (R : oring) norm bohr rmax k, convert R norm None bohr rmax (Ua (Some k)) = NameError.
Proof. reflexivity. Qed.

(** Example: a chain of two atoms per cell of length 10, radius 7: the other atom and its image on the other side. *)
Example chain_example : make_cp ZO (fun p => let '(a, b, c) := p in (Z.abs a + Z.abs b + Z.abs c)%Z) 2 (fun a => (false, a)) (fun a => match a with O => (0, 0, 0)%Z | _ => (4, 0, 0)%Z end) 1
    (Some (fun k => match k with O => (10, 0, 0)%Z | _ => (0, 0, 0)%Z end)) 1%Z 0%nat (7%Z : ZO) 1 UA
  = Atoms [((false, 0%nat), (0, 0, 0)%Z); ((true, 1%nat), (-6, 0, 0)%Z); ((true, 1%nat), (4, 0, 0)%Z)].
Proof. reflexivity. Qed.

Print Assumptions C46_atoms. Print Assumptions C46_no_radius. Print Assumptions C46_open. Print Assumptions C46_units. Print Assumptions C46_unit_refuted. Print Assumptions C46_molecule_refuted.
