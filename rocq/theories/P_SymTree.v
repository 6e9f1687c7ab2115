(** Properties C12 and C13: symmetry-related fragments. *)
From Coq Require Import List Arith Bool Lia Permutation.
From Verif Require Import Alg M_SymTree.
Import ListNotations.

Section SymTree.
Context {op arr : Type} (act : op -> nat -> arr -> arr).
Notation frag := (frag op).

(** ** Specification *)

(** [chain frags p path f]: going from the fragment with id p to its child, the child's child, ... along [path] ends in f. *)
Inductive chain (frags : list frag) : nat -> list frag -> frag -> Prop :=
| chain_one p x : In x frags -> fparent x = Some p -> chain frags p [x] x
| chain_cons p x path f : In x frags -> fparent x = Some p -> chain frags (fid x) path f -> chain frags p (x :: path) f.

(** A forest: distinct ids, every parent is a fragment, and there are no cycles (rank decreases towards the parent). *)
Definition forest (frags : list frag) : Prop :=
  NoDup (map fid frags) /\
  (forall f p, In f frags -> fparent f = Some p -> exists g, In g frags /\ fid g = p) /\
  exists rank : nat -> nat, forall f p, In f frags -> fparent f = Some p -> rank p < rank (fid f).

(** All chains have at most n links. *)
Definition depth_le (frags : list frag) (n : nat) : Prop := forall p path f, chain frags p path f -> length path <= n.

(** Apply the operations along a path, the operation of the first child first. *)
Definition apply_path (axes : list nat) (path : list frag) (arrays : list arr) : list arr :=
  fold_left (fun a x => map (fun '(y, axis) => act (fop x) axis y) (combine a axes)) path arrays.

(** ** Lemmas *)

Lemma In_children (frags : list frag) p x : In x (children frags p) <-> In x frags /\ fparent x = Some p.
Proof.
  unfold children. rewrite filter_In. destruct (fparent x) as [q|].
  - rewrite Nat.eqb_eq. split; intros [H1 H2]; split; auto; congruence.
  - split; intros [_ H]; discriminate.
Qed.

Fixpoint dfs (frags : list frag) (axes : list nat) (n : nat) (p : nat) (arrays : list arr) : list (frag * list arr) :=
  match n with
  | 0 => []
  | S n' => flat_map (fun x => (x, transform act axes (fop x) arrays) :: dfs frags axes n' (fid x) (transform act axes (fop x) arrays))
              (children frags p)
  end.

Lemma flat_map_map {A B C} (f : B -> list C) (g : A -> B) l : flat_map f (map g l) = flat_map (fun x => f (g x)) l.
Proof. induction l as [|a l IH]; simpl; auto. rewrite IH. auto. Qed.

Lemma children_one (frags : list frag) p : get_symmetry_children frags p (Some 1) = children frags p.
Proof. unfold get_symmetry_children. simpl. apply app_nil_r. Qed.

Lemma loop_dfs (frags : list frag) axes : forall n m p arrays, 1 <= m ->
  flat_map (loop_tree act axes m arrays) (get_symmetry_tree frags n p) = dfs frags axes (Nat.min n m) p arrays.
Proof.
  induction n as [|n IH]; intros m p arrays Hm; [reflexivity|].
  cbn [get_symmetry_tree]. rewrite children_one, flat_map_map.
  destruct m as [|m]; [lia|]. cbn [Nat.min dfs]. apply flat_map_ext. intros x. cbn [loop_tree].
  f_equal. destruct m as [|m].
  - rewrite Nat.min_0_r. reflexivity.
  - cbn [Nat.ltb Nat.leb]. replace (S (S m) - 1) with (S m) by lia. rewrite IH by lia. reflexivity.
Qed.

Lemma In_dfs (frags : list frag) axes : forall n p arrays f a,
  In (f, a) (dfs frags axes n p arrays) <->
  exists path, chain frags p path f /\ length path <= n /\ a = apply_path axes path arrays.
Proof.
  induction n as [|n IH]; intros p arrays f a.
  - simpl. split; [tauto|]. intros (path & H & Hl & _). destruct H; simpl in Hl; lia.
  - cbn [dfs]. rewrite in_flat_map. split.
    + intros (x & Hx & [E|Hin]).
      * injection E as <- <-. apply In_children in Hx. exists [x]. split; [constructor; tauto|]. split; [simpl; lia|auto].
      * apply IH in Hin. destruct Hin as (path & Hc & Hl & ->). apply In_children in Hx. exists (x :: path).
        split; [constructor; tauto|]. split; [simpl; lia|auto].
    + intros (path & Hc & Hl & ->). destruct Hc as [p x H1 H2|p x path f H1 H2 Hc].
      * exists x. split; [apply In_children; auto|]. left. auto.
      * exists x. split; [apply In_children; auto|]. right. apply IH. exists path. split; auto. split; [simpl in Hl; lia|auto].
Qed.

Lemma chain_rank (frags : list frag) rank : (forall f p, In f frags -> fparent f = Some p -> rank p < rank (fid f)) ->
  forall p path f, chain frags p path f -> rank p < rank (fid f).
Proof.
  intros Hr p path f H. induction H as [p x H1 H2|p x path f H1 H2 Hc IH].
  - apply Hr; auto.
  - specialize (Hr x p H1 H2). lia.
Qed.

(** The depth limit is met whenever there are at most that many fragments. *)
Lemma forest_depth (frags : list frag) : forest frags -> depth_le frags (length frags).
Proof.
  intros (_ & _ & rank & Hr) p path f H. apply NoDup_incl_length.
  - assert (Hg : NoDup path /\ forall x, In x path -> rank p < rank (fid x)).
    { induction H as [p x H1 H2|p x path f H1 H2 Hc IH]; specialize (Hr x p H1 H2).
      - split; [repeat constructor; intros []|]. intros y [<-|[]]. auto.
      - destruct IH as [IH1 IH2]. split.
        + constructor; auto. intros Hx. specialize (IH2 x Hx). lia.
        + intros y [<-|Hy]; auto. specialize (IH2 y Hy). lia. }
    tauto.
  - induction H as [p x H1 H2|p x path f H1 H2 Hc IH]; intros y Hy.
    + destruct Hy as [<-|[]]. auto.
    + destruct Hy as [<-|Hy]; auto.
Qed.

(** Decomposition at the end of the chain. *)
Lemma chain_last (frags : list frag) p path f : chain frags p path f ->
  In f frags /\ ((path = [f] /\ fparent f = Some p) \/
                 exists path' g, path = path' ++ [f] /\ chain frags p path' g /\ fparent f = Some (fid g)).
Proof.
  induction 1 as [p x H1 H2|p x path f H1 H2 Hc IH].
  - auto.
  - destruct IH as [Hf [[-> Hp]|(path' & g & -> & Hg & Hp)]]; split; auto; right.
    + exists [x], x. split; auto. split; auto. constructor; auto.
    + exists (x :: path'), g. split; auto. split; auto. constructor; auto.
Qed.

Lemma fid_inj (frags : list frag) f g : NoDup (map fid frags) -> In f frags -> In g frags -> fid f = fid g -> f = g.
Proof.
  induction frags as [|x frags IH]; simpl; intros Hn; [tauto|]. inversion Hn as [|? ? Hx Hn']; subst.
  intros [->|Hf] [->|Hg] E; auto.
  - exfalso. apply Hx. rewrite E. apply in_map. auto.
  - exfalso. apply Hx. rewrite <- E. apply in_map. auto.
Qed.

Lemma chain_unique (frags : list frag) : forest frags -> forall p path1 path2 f,
  chain frags p path1 f -> chain frags p path2 f -> path1 = path2.
Proof.
  intros (Hn & _ & rank & Hr) p path1. remember (length path1) as n eqn:Hlen.
  revert path1 Hlen. induction n as [n IH] using lt_wf_ind. intros path1 Hlen path2 f H1 H2.
  apply chain_last in H1. apply chain_last in H2.
  destruct H1 as [Hf [[-> P1]|(q1 & g1 & -> & C1 & P1)]]; destruct H2 as [_ [[-> P2]|(q2 & g2 & -> & C2 & P2)]]; auto.
  - exfalso. rewrite P1 in P2. injection P2 as P2. pose proof (chain_rank _ _ Hr _ _ _ C2). rewrite <- P2 in H. lia.
  - exfalso. rewrite P1 in P2. injection P2 as P2. pose proof (chain_rank _ _ Hr _ _ _ C1). rewrite P2 in H. lia.
  - rewrite P1 in P2. injection P2 as P2.
    assert (g1 = g2).
    { apply (fid_inj frags); auto; [eapply chain_last; eauto|eapply chain_last; eauto]. }
    subst g2. f_equal. eapply IH; [|reflexivity|eauto|eauto]. rewrite Hlen, app_length. simpl. lia.
Qed.

Lemma NoDup_flat_map {A B} (g : A -> list B) l : NoDup l -> (forall x, In x l -> NoDup (g x)) ->
  (forall x y b, In x l -> In y l -> In b (g x) -> In b (g y) -> x = y) -> NoDup (flat_map g l).
Proof.
  assert (Happ : forall l1 l2 : list B, NoDup l1 -> NoDup l2 -> (forall x, In x l1 -> In x l2 -> False) -> NoDup (l1 ++ l2)).
  { induction l1 as [|a l1 IH]; simpl; auto. intros l2 H1 H2 H. inversion H1; subst. constructor.
    - rewrite in_app_iff. intros [?|?]; auto. apply (H a); auto.
    - apply IH; auto. intros x Hx Hy. apply (H x); auto. }
  induction l as [|a l IH]; intros Hl Hg Hd; simpl; [constructor|]. inversion Hl; subst. apply Happ.
  - apply Hg. left. auto.
  - apply IH; auto.
    + intros x Hx. apply Hg. right. auto.
    + intros x y b Hx Hy. apply Hd; right; auto.
  - intros b Hb Hb'. apply in_flat_map in Hb'. destruct Hb' as (y & Hy & Hb'). apply H1.
    rewrite (Hd a y b); auto; [left; auto|right; auto].
Qed.

Lemma map_flat_map {A B C} (f : B -> C) (g : A -> list B) l : map f (flat_map g l) = flat_map (fun x => map f (g x)) l.
Proof. induction l as [|a l IH]; simpl; auto. rewrite map_app, IH. auto. Qed.

Lemma NoDup_frags (frags : list frag) : NoDup (map fid frags) -> NoDup frags.
Proof. apply NoDup_map_inv. Qed.

Lemma NoDup_dfs (frags : list frag) axes : forest frags -> forall n p arrays, NoDup (map fst (dfs frags axes n p arrays)).
Proof.
  intros Hw. pose proof Hw as (Hn & _ & rank & Hr). induction n as [|n IH]; intros p arrays; [constructor|].
  cbn [dfs]. rewrite map_flat_map.
  assert (Hin : forall x f, In x (children frags p) ->
     In f (map fst ((x, transform act axes (fop x) arrays) :: dfs frags axes n (fid x) (transform act axes (fop x) arrays))) ->
     exists path, chain frags p (x :: path) f).
  { intros x f Hx Hf. apply In_children in Hx. destruct Hf as [<-|Hf].
    - exists []. constructor; tauto.
    - apply in_map_iff in Hf. destruct Hf as ((f' & a) & <- & Hf). apply In_dfs in Hf. destruct Hf as (path & Hc & _).
      exists path. constructor; tauto. }
  apply NoDup_flat_map.
  - apply NoDup_filter, NoDup_frags, Hn.
  - intros x Hx. cbn [map]. constructor; [|apply IH].
    intros Hf. apply in_map_iff in Hf. destruct Hf as ((f' & a) & E & Hf). cbn in E. subst f'.
    apply In_dfs in Hf. destruct Hf as (path & Hc & _). pose proof (chain_rank _ _ Hr _ _ _ Hc). lia.
  - intros x y b Hx Hy Hbx Hby. apply Hin in Hbx; auto. apply Hin in Hby; auto.
    destruct Hbx as (p1 & C1), Hby as (p2 & C2). pose proof (chain_unique _ Hw _ _ _ _ C1 C2). congruence.
Qed.

(** Generations. *)
Definition step (frags : list frag) (l : list frag) := flat_map (fun fx => children frags (fid fx)) l.
Fixpoint bfs (frags : list frag) (n : nat) (last : list frag) : list frag :=
  match n with 0 => [] | S n' => step frags last ++ bfs frags n' (step frags last) end.

Lemma bfs_nil (frags : list frag) n : bfs frags n [] = [].
Proof. induction n; simpl; auto. Qed.

Lemma generations_bfs (frags : list frag) : forall n last, concat (generations_loop frags n last) = bfs frags n last.
Proof.
  induction n as [|n IH]; intros last; [reflexivity|]. cbn [generations_loop bfs].
  change (flat_map (fun fx => children frags (fid fx)) last) with (step frags last).
  destruct (step frags last) as [|a l].
  - simpl. rewrite bfs_nil. auto.
  - cbn [concat]. rewrite IH. reflexivity.
Qed.

Lemma children_bfs (frags : list frag) p m : 1 <= m -> get_symmetry_children frags p (Some m) = children frags p ++ bfs frags (m - 1) (children frags p).
Proof.
  intros Hm. unfold get_symmetry_children, get_symmetry_generations. destruct m; [lia|]. cbn [concat].
  rewrite generations_bfs. reflexivity.
Qed.

Definition is_gen (frags : list frag) (p k : nat) (l : list frag) : Prop :=
  NoDup l /\ forall f, In f l <-> exists path, chain frags p path f /\ length path = k.

Lemma is_gen_step (frags : list frag) p k l : forest frags -> 1 <= k -> is_gen frags p k l -> is_gen frags p (S k) (step frags l).
Proof.
  intros Hw Hk (Hl & Hin). pose proof Hw as (Hn & _ & rank & Hr). split.
  - apply NoDup_flat_map; auto.
    + intros x _. apply NoDup_filter, NoDup_frags, Hn.
    + intros x y b Hx Hy Hbx Hby. apply In_children in Hbx, Hby. destruct Hbx as [_ E1], Hby as [_ E2].
      apply Hin in Hx, Hy. destruct Hx as (? & Cx & _), Hy as (? & Cy & _).
      apply (fid_inj frags); auto; [eapply chain_last; eauto|eapply chain_last; eauto|congruence].
  - intros f. unfold step. rewrite in_flat_map. split.
    + intros (x & Hx & Hf). apply In_children in Hf. apply Hin in Hx. destruct Hx as (path & Hc & Hlen).
      exists (path ++ [f]). split; [|rewrite app_length; simpl; lia].
      clear - Hc Hf. induction Hc; simpl.
      * constructor; auto. constructor; tauto.
      * constructor; auto.
    + intros (path & Hc & Hlen). apply chain_last in Hc. destruct Hc as [Hf [[-> _]|(path' & g & -> & Hg & Hp)]].
      * simpl in Hlen. lia.
      * exists g. split; [|apply In_children; auto]. apply Hin. exists path'. split; auto.
        rewrite app_length in Hlen. simpl in Hlen. lia.
Qed.

Lemma bfs_spec (frags : list frag) p : forest frags -> forall n k l, 1 <= k -> is_gen frags p k l ->
  NoDup (bfs frags n l) /\ forall f, In f (bfs frags n l) <-> exists path, chain frags p path f /\ k < length path <= k + n.
Proof.
  intros Hw. induction n as [|n IH]; intros k l Hk Hg; cbn [bfs].
  - split; [constructor|]. intros f. split; [intros []|]. intros (path & _ & Hl). lia.
  - pose proof (is_gen_step _ _ _ _ Hw Hk Hg) as Hg'. destruct (IH (S k) _ ltac:(lia) Hg') as [H1 H2].
    destruct Hg' as [G1 G2]. split.
    + assert (Happ : forall l1 l2 : list frag, NoDup l1 -> NoDup l2 -> (forall x, In x l1 -> In x l2 -> False) -> NoDup (l1 ++ l2)).
      { clear. induction l1 as [|a l1 IH]; simpl; auto. intros l2 H1 H2 H. inversion H1; subst. constructor.
        - rewrite in_app_iff. intros [?|?]; auto. apply (H a); auto.
        - apply IH; auto. intros x Hx Hy. apply (H x); auto. }
      apply Happ; auto. intros f Hf1 Hf2. apply G2 in Hf1. apply H2 in Hf2. destruct Hf1 as (p1 & C1 & L1), Hf2 as (p2 & C2 & L2).
      pose proof (chain_unique _ Hw _ _ _ _ C1 C2). subst. lia.
    + intros f. rewrite in_app_iff, G2, H2. split.
      * intros [(path & Hc & Hl)|(path & Hc & Hl)]; exists path; split; auto; lia.
      * intros (path & Hc & Hl). destruct (Nat.eq_dec (length path) (S k)); [left|right]; exists path; split; auto; lia.
Qed.

Lemma get_symmetry_children_spec (frags : list frag) p m : forest frags -> 1 <= m ->
  NoDup (get_symmetry_children frags p (Some m)) /\
  forall f, In f (get_symmetry_children frags p (Some m)) <-> exists path, chain frags p path f /\ length path <= m.
Proof.
  intros Hw Hm. pose proof Hw as (Hn & _). rewrite children_bfs by auto.
  assert (Hg : is_gen frags p 1 (children frags p)).
  { split; [apply NoDup_filter, NoDup_frags, Hn|]. intros f. rewrite In_children. split.
    - intros [H1 H2]. exists [f]. split; auto. constructor; auto.
    - intros (path & Hc & Hl). destruct Hc as [p x H1 H2|p x path f H1 H2 Hc]; auto.
      destruct Hc; simpl in Hl; lia. }
  destruct (bfs_spec frags p Hw (m - 1) 1 _ (le_n 1) Hg) as [B1 B2]. destruct Hg as [G1 G2]. split.
  - assert (Happ : forall l1 l2 : list frag, NoDup l1 -> NoDup l2 -> (forall x, In x l1 -> In x l2 -> False) -> NoDup (l1 ++ l2)).
    { clear. induction l1 as [|a l1 IH]; simpl; auto. intros l2 H1 H2 H. inversion H1; subst. constructor.
      - rewrite in_app_iff. intros [?|?]; auto. apply (H a); auto.
      - apply IH; auto. intros x Hx Hy. apply (H x); auto. }
    apply Happ; auto. intros f Hf1 Hf2. apply G2 in Hf1. apply B2 in Hf2. destruct Hf1 as (p1 & C1 & L1), Hf2 as (p2 & C2 & L2).
    pose proof (chain_unique _ Hw _ _ _ _ C1 C2). subst. lia.
  - intros f. rewrite in_app_iff, G2, B2. split.
    + intros [(path & Hc & Hl)|(path & Hc & Hl)]; exists path; split; auto; lia.
    + intros (path & Hc & Hl). assert (0 < length path) by (destruct Hc; simpl; lia).
      destruct (Nat.eq_dec (length path) 1); [left|right]; exists path; split; auto; lia.
Qed.

(** Every fragment is a root or lies on a chain from a root. *)
Lemma root_or_chain (frags : list frag) : forest frags -> forall f, In f frags ->
  fparent f = None \/ exists r path, In r frags /\ fparent r = None /\ chain frags (fid r) path f.
Proof.
  intros (Hn & Hp & rank & Hr) f. remember (rank (fid f)) as n eqn:E. revert f E.
  induction n as [n IH] using lt_wf_ind. intros f -> Hf. destruct (fparent f) as [p|] eqn:P; auto. right.
  destruct (Hp f p Hf P) as (g & Hg & Eg). pose proof (Hr f p Hf P) as Hlt.
  destruct (IH (rank (fid g)) ltac:(congruence) g eq_refl Hg) as [Hroot|(r & path & Hr1 & Hr2 & Hc)].
  - exists g, [f]. split; auto. split; auto. constructor; auto. congruence.
  - exists r, (path ++ [f]). split; auto. split; auto. subst p.
    clear - Hc Hf P. induction Hc as [p x H1 H2|p x path g H1 H2 Hc IHc]; simpl.
    + constructor; auto. constructor; auto.
    + constructor; auto.
Qed.

(** Different roots reach different fragments. *)
Lemma chain_root_unique (frags : list frag) : forest frags -> forall r1 r2 p1 p2 f,
  In r1 frags -> In r2 frags -> fparent r1 = None -> fparent r2 = None ->
  chain frags (fid r1) p1 f -> chain frags (fid r2) p2 f -> r1 = r2.
Proof.
  intros (Hn & _) r1 r2 p1. remember (length p1) as n eqn:E. revert p1 E. induction n as [n IH] using lt_wf_ind.
  intros p1 -> p2 f Hr1 Hr2 N1 N2 C1 C2. apply chain_last in C1, C2.
  destruct C1 as [Hf [[-> P1]|(q1 & g1 & -> & C1 & P1)]]; destruct C2 as [_ [[-> P2]|(q2 & g2 & -> & C2 & P2)]].
  - apply (fid_inj frags); auto. congruence.
  - exfalso. rewrite P1 in P2. injection P2 as P2. apply chain_last in C2.
    assert (r1 = g2) by (apply (fid_inj frags); auto; apply C2). subst g2.
    destruct C2 as [_ [[_ C]|(? & ? & _ & _ & C)]]; congruence.
  - exfalso. rewrite P1 in P2. injection P2 as P2. apply chain_last in C1.
    assert (r2 = g1) by (apply (fid_inj frags); auto; apply C1). subst g1.
    destruct C1 as [_ [[_ C]|(? & ? & _ & _ & C)]]; congruence.
  - assert (g1 = g2).
    { apply (fid_inj frags); auto; [eapply chain_last; eauto|eapply chain_last; eauto|congruence]. }
    subst g2. eapply (IH (length q1)); eauto. rewrite app_length. simpl. lia.
Qed.

(** ** C12 *)

(** What the loop over the children of one fragment yields: exactly the descendants up to generation maxgen (default 1000), once each,
    together with the arrays transformed by all operations on the way. *)
Theorem C12_loop : forall (frags : list frag) self arrays axes maxgen,
  forest frags ->
  let m := match maxgen with Some m => m | None => 1000 end in
  let out := loop_symmetry_children act frags self arrays axes maxgen false in
  NoDup (map fst out) /\
  forall f a, In (f, a) out <->
    exists path, chain frags (fid self) path f /\ length path <= Nat.min m 1000 /\
      a = apply_path (match axes with Some x => x | None => repeat 0 (length arrays) end) path arrays.
Proof.
  intros frags self arrays axes maxgen Hw m out.
  assert (E : out = dfs frags (match axes with Some x => x | None => repeat 0 (length arrays) end) (Nat.min 1000 m) (fid self) arrays).
  { unfold out, loop_symmetry_children. cbv zeta. cbn [app].
    destruct maxgen as [[|k]|]; unfold m.
    - rewrite Nat.min_0_r. reflexivity.
    - apply loop_dfs. lia.
    - apply loop_dfs. lia. }
  rewrite E. split; [apply NoDup_dfs; auto|]. intros f a. rewrite In_dfs. rewrite Nat.min_comm. reflexivity.
Qed.

(** Looping over all fragments without parent and their children visits every fragment exactly once. *)
Theorem C12_visits_all : forall (frags : list frag) (arrays : frag -> list arr) axes,
  forest frags -> depth_le frags 1000 ->
  Permutation
    (flat_map (fun p => map fst (loop_symmetry_children act frags p (arrays p) axes None true)) (symmetry_parents frags))
    frags.
Proof.
  intros frags arrays axes Hw Hd. pose proof Hw as (Hn & Hp & rank & Hr). apply NoDup_Permutation.
  - assert (Hin : forall p f, In f (map fst (loop_symmetry_children act frags p (arrays p) axes None true)) ->
              f = p \/ exists path, chain frags (fid p) path f).
    { intros p f Hf. apply in_map_iff in Hf. destruct Hf as ((f' & a) & <- & Hf).
      change (In (f', a) ([(p, arrays p)] ++ loop_symmetry_children act frags p (arrays p) axes None false)) in Hf.
      apply in_app_iff in Hf. destruct Hf as [[E|[]]|Hf].
      - injection E as <- _. auto.
      - right. destruct (C12_loop frags p (arrays p) axes None Hw) as [_ Hx]. apply Hx in Hf.
        destruct Hf as (path & Hc & _). eauto. }
    apply NoDup_flat_map.
    + apply NoDup_filter, NoDup_frags, Hn.
    + intros p _. change (NoDup (p :: map fst (loop_symmetry_children act frags p (arrays p) axes None false))).
      destruct (C12_loop frags p (arrays p) axes None Hw) as [Hx Hy]. constructor; auto.
      intros Hi. apply in_map_iff in Hi. destruct Hi as ((f' & a) & E & Hi). cbn in E. subst f'. apply Hy in Hi.
      destruct Hi as (path & Hc & _). pose proof (chain_rank _ _ Hr _ _ _ Hc). lia.
    + intros x y f Hx Hy Hfx Hfy. apply filter_In in Hx, Hy.
      destruct Hx as [Hx Nx], Hy as [Hy Ny].
      assert (Nx' : fparent x = None) by (destruct (fparent x); congruence).
      assert (Ny' : fparent y = None) by (destruct (fparent y); congruence).
      apply Hin in Hfx, Hfy. destruct Hfx as [->|[q1 C1]]; destruct Hfy as [->|[q2 C2]]; auto.
      * exfalso. apply chain_last in C2. destruct C2 as [_ [[_ C]|(? & ? & _ & _ & C)]]; congruence.
      * exfalso. apply chain_last in C1. destruct C1 as [_ [[_ C]|(? & ? & _ & _ & C)]]; congruence.
      * eapply chain_root_unique; eauto.
  - apply NoDup_frags, Hn.
  - intros f. rewrite in_flat_map. split.
    + intros (p & Hpp & Hf). apply filter_In in Hpp. destruct Hpp as [Hpp _].
      change (In f (p :: map fst (loop_symmetry_children act frags p (arrays p) axes None false))) in Hf.
      destruct Hf as [->|Hf]; auto. apply in_map_iff in Hf. destruct Hf as ((f' & a) & <- & Hf).
      apply (C12_loop frags p (arrays p) axes None Hw) in Hf. destruct Hf as (path & Hc & _). eapply chain_last; eauto.
    + intros Hf. destruct (root_or_chain frags Hw f Hf) as [Nf|(r & path & Hr1 & Nr & Hc)].
      * exists f. split.
        -- apply filter_In. rewrite Nf. auto.
        -- left. auto.
      * exists r. split.
        -- apply filter_In. rewrite Nr. auto.
        -- right.
           destruct (C12_loop frags r (arrays r) axes None Hw) as [_ Hx].
           apply in_map_iff. eexists. split; [|apply Hx; exists path; split; [exact Hc|split; [apply (Hd _ _ _ Hc)|reflexivity]]].
           reflexivity.
Qed.

(** get_symmetry_children (generation by generation) lists the same descendants as the recursive loop. *)
Theorem C12_children : forall (frags : list frag) self arrays axes,
  forest frags ->
  Permutation (get_symmetry_children frags (fid self) None)
    (map fst (loop_symmetry_children act frags self arrays axes None false)).
Proof.
  intros frags self arrays axes Hw.
  change (get_symmetry_children frags (fid self) None) with (get_symmetry_children frags (fid self) (Some 1000)).
  destruct (get_symmetry_children_spec frags (fid self) 1000 Hw ltac:(lia)) as [H1 H2].
  destruct (C12_loop frags self arrays axes None Hw) as [H3 H4].
  apply NoDup_Permutation; auto. intros f. rewrite H2. rewrite in_map_iff. split.
  - intros (path & Hc & Hl). eexists. split; [|apply H4; exists path; split; [exact Hc|split; [exact Hl|reflexivity]]]. reflexivity.
  - intros ((f' & a) & <- & Hf). apply H4 in Hf. destruct Hf as (path & Hc & Hl & _). exists path. auto.
Qed.

(** ** C13 *)

Section Weighted.
Context (K : cring).
Add Ring Kr : (rth K).

(** Sum over parents with symmetry factors = sum over all fragments, for every quantity that does not change from parent to child. *)
Theorem C13_weighted_sum : forall (frags : list frag) (q : frag -> K),
  forest frags -> depth_le frags 1000 ->
  (forall f g, In f frags -> In g frags -> fparent f = Some (fid g) -> q f = q g) ->
  Lsum (symmetry_parents frags) (fun p => rmul (nK (symmetry_factor frags (fid p))) (q p)) = Lsum frags q.
Proof.
  intros frags q Hw Hd Hq. pose proof Hw as (Hn & Hpar & _).
  rewrite <- (Lsum_Permutation _ _ q (C12_visits_all frags (fun _ => []) None Hw Hd)).
  rewrite Lsum_flat_map. apply Lsum_ext. intros p Hp. apply filter_In in Hp. destruct Hp as [Hp _].
  assert (Hconst : forall path f, chain frags (fid p) path f -> q f = q p).
  { intros path. remember (length path) as n eqn:E. revert path E. induction n as [n IH] using lt_wf_ind.
    intros path -> f Hc. apply chain_last in Hc. destruct Hc as [Hf [[-> P]|(path' & g & -> & Hg & P)]].
    - apply Hq; auto.
    - rewrite (Hq f g); auto; [|eapply chain_last; eauto]. eapply (IH (length path')); eauto. rewrite app_length. simpl. lia. }
  change (map fst (loop_symmetry_children act frags p [] None None true))
    with (p :: map fst (loop_symmetry_children act frags p [] None None false)).
  cbn [Lsum]. rewrite (Lsum_ext _ q (fun _ => q p)).
  - rewrite Lsum_const. unfold symmetry_factor.
    rewrite (Permutation_length (C12_children frags p [] None Hw)).
    rewrite nK_add. cbn [nK]. ring.
  - intros f Hf. apply in_map_iff in Hf. destruct Hf as ((f' & a) & <- & Hf).
    apply (C12_loop frags p [] None None Hw) in Hf. destruct Hf as (path & Hc & _). eapply Hconst; eauto.
Qed.
End Weighted.

(** If every child is the child of a fragment without parent, [get_symmetry_child_fragments] lists the children of each of
    these, in their order. *)
Theorem C12_child_fragments : forall frags : list frag,
  (forall f p, In f frags -> fparent f = Some p -> exists g, In g frags /\ fid g = p /\ fparent g = None) ->
  exists roots ll, get_symmetry_child_fragments frags = Some ll /\
    (forall g, In g roots <-> In g frags /\ fparent g = None) /\
    Forall2 (fun g l => forall x, In x l <-> In x frags /\ fparent x = Some (fid g)) roots ll /\
    (NoDup frags -> Forall (@NoDup frag) ll).
Proof.
  intros frags H. unfold get_symmetry_child_fragments.
  assert (R : forall g, In g (symmetry_parents frags) <-> In g frags /\ fparent g = None).
  { intros g. unfold symmetry_parents. rewrite filter_In. destruct (fparent g); intuition discriminate. }
  assert (G : forall todo acc, (forall f p, In f todo -> fparent f = Some p -> exists g, In g frags /\ fid g = p /\ fparent g = None) ->
    exists acc', child_fragments frags (symmetry_parents frags) todo acc = Some acc' /\
    forall q, acc' q = acc q ++ filter (fun f => match fparent f with Some p => q =? p | None => false end) todo).
  { induction todo as [|f todo IH]; intros acc Hp.
    - exists acc. split; auto. intros q. now rewrite app_nil_r.
    - cbn [child_fragments filter]. destruct (fparent f) as [p|] eqn:P.
      + destruct (Hp f p (or_introl eq_refl) P) as (g & G1 & G2 & G3).
        assert (existsb (fun p0 => fid p0 =? p) (symmetry_parents frags) = true) as ->.
        { apply existsb_exists. exists g. split; [apply R; auto|]. now apply Nat.eqb_eq. }
        destruct (IH (fun q => if q =? p then acc q ++ [f] else acc q)) as (acc' & E & Q); [intros; eapply Hp; simpl; eauto|].
        exists acc'. split; auto. intros q. rewrite Q. destruct (q =? p); auto. now rewrite <- app_assoc.
      + destruct (IH acc) as (acc' & E & Q); [intros; eapply Hp; simpl; eauto|]. exists acc'. split; auto. }
  destruct (G frags (fun _ => []) H) as (acc & -> & Q). exists (symmetry_parents frags), (map (fun p => acc (fid p)) (symmetry_parents frags)).
  split; auto. split; auto. split.
  - clear R. generalize (symmetry_parents frags). induction l as [|g l IH]; simpl; constructor; auto.
    intros x. rewrite Q. cbn [app]. rewrite filter_In. destruct (fparent x) as [p|].
    + rewrite Nat.eqb_eq. split; intros [H1 H2]; split; auto; congruence.
    + split; intros [_ H2]; discriminate.
  - intros N. apply Forall_forall. intros l Hl. apply in_map_iff in Hl. destruct Hl as (p & <- & _). rewrite Q. now apply NoDup_filter.
Qed.

End SymTree.

(** A forest with two roots, two children of the first and a grandchild; operations are additions. *)
Definition ex_frags : list (frag nat) :=
  [ {| fid := 0; fparent := None; fop := 0 |}; {| fid := 5; fparent := None; fop := 0 |};
    {| fid := 1; fparent := Some 0; fop := 10 |}; {| fid := 2; fparent := Some 0; fop := 20 |};
    {| fid := 3; fparent := Some 1; fop := 100 |} ].
Definition ex_rank (n : nat) := if n =? 3 then 2 else if (n =? 1) || (n =? 2) then 1 else 0.
Example C12_ex_forest : forest ex_frags.
Proof.
  split; [|split].
  - simpl. repeat constructor; simpl; intuition discriminate.
  - intros f p [<-|[<-|[<-|[<-|[<-|[]]]]]] E; try discriminate; injection E as <-.
    + exists {| fid := 0; fparent := None; fop := 0 |}. simpl. auto.
    + exists {| fid := 0; fparent := None; fop := 0 |}. simpl. auto.
    + exists {| fid := 1; fparent := Some 0; fop := 10 |}. simpl. auto.
  - exists ex_rank.
    intros f p [<-|[<-|[<-|[<-|[<-|[]]]]]] E; try discriminate; injection E as <-; vm_compute; lia.
Qed.
Example C12_ex_depth : depth_le ex_frags 1000.
Proof.
  intros p path f H.
  assert (Hr : forall f p, In f ex_frags -> fparent f = Some p -> ex_rank p < ex_rank (fid f)).
  { intros f0 p0 [<-|[<-|[<-|[<-|[<-|[]]]]]] E; try discriminate; injection E as <-; vm_compute; lia. }
  assert (ex_rank p + length path <= ex_rank (fid f)).
  { induction H as [p x H1 H2|p x path f H1 H2 H IH]; specialize (Hr x p H1 H2); simpl; lia. }
  assert (ex_rank (fid f) <= 2).
  { unfold ex_rank. destruct (fid f =? 3), ((fid f =? 1) || (fid f =? 2)); lia. }
  lia.
Qed.
Example C12_ex_loop :
  map (fun '(f, a) => (fid f, a)) (loop_symmetry_children (fun o _ a => o + a) ex_frags {| fid := 0; fparent := None; fop := 0 |} [7] None None true)
  = [(0, [7]); (1, [17]); (3, [117]); (2, [27])].
Proof. reflexivity. Qed.
Example C13_ex : symmetry_factor ex_frags 0 = 4 /\ symmetry_factor ex_frags 5 = 1.
Proof. split; reflexivity. Qed.

(** Fragments 0 and 2, 1 and 4 being children of 0 and 3 a child of 2. *)
Example C12_ex_child_fragments :
  let fr i p := {| fid := i; fparent := p; fop := 0 |} in
  get_symmetry_child_fragments [fr 0 None; fr 1 (Some 0); fr 2 None; fr 3 (Some 2); fr 4 (Some 0)] = Some [[fr 1 (Some 0); fr 4 (Some 0)]; [fr 3 (Some 2)]].
Proof. reflexivity. Qed.

(** Findings: [get_symmetry_child_fragments] raises as soon as there is a child of a child, [get_symmetry_operation] returns only the
    last operation of the path, and a filter that drops a child also drops its (passing) children from [get_symmetry_children]. *)
Theorem C12_child_fragments_refuted :
  exists frags : list (frag nat), forest frags /\ depth_le frags 1000 /\ get_symmetry_child_fragments frags = None.
Proof. exists ex_frags. split; [apply C12_ex_forest|]. split; [apply C12_ex_depth|]. reflexivity. Qed.

Theorem C12_symmetry_operation_refuted :
  exists (frags : list (frag nat)) p path f o a, forest frags /\ chain frags p path f /\ fparent f <> None /\
    get_symmetry_operation f = Some o /\ apply_path (fun o _ a => o + a) [0] path [a] <> [o + a].
Proof.
  exists ex_frags, 0, [{| fid := 1; fparent := Some 0; fop := 10 |}; {| fid := 3; fparent := Some 1; fop := 100 |}],
    {| fid := 3; fparent := Some 1; fop := 100 |}, 100, 0.
  split; [apply C12_ex_forest|]. split.
  - apply chain_cons; [simpl; auto|auto|]. apply chain_one; simpl; auto 10.
  - split; [discriminate|]. split; [reflexivity|]. simpl. discriminate.
Qed.

Theorem C12_filtered_children_refuted :
  exists (frags : list (frag nat)) (pass : frag nat -> bool) f path, forest frags /\ chain frags 0 path f /\ pass f = true /\
    ~ In f (get_symmetry_children (filter pass frags) 0 None).
Proof.
  exists ex_frags, (fun f => negb (fid f =? 1)), {| fid := 3; fparent := Some 1; fop := 100 |},
    [{| fid := 1; fparent := Some 0; fop := 10 |}; {| fid := 3; fparent := Some 1; fop := 100 |}].
  split; [apply C12_ex_forest|]. split.
  - apply chain_cons; [simpl; auto|auto|]. apply chain_one; simpl; auto 10.
  - split; [reflexivity|]. simpl. intuition discriminate.
Qed.

Print Assumptions C12_loop.
Print Assumptions C12_visits_all.
Print Assumptions C12_children.
Print Assumptions C13_weighted_sum.
Print Assumptions C12_child_fragments.
Print Assumptions C12_child_fragments_refuted.
Print Assumptions C12_symmetry_operation_refuted.
Print Assumptions C12_filtered_children_refuted.
