(** C39: fragmentation contexts; C40: secondary fragments. *)
From Coq Require Import List Arith ZArith QArith Lia Bool Permutation.
From Verif Require Import M_Symop M_Contexts.
Import ListNotations.
Close Scope Q_scope. Open Scope nat_scope.

(** ** What the user asks for, by structure of the program *)
(** A fragment without its number and its family. *)
Record item := It { i_site : nat; i_factor : option Z; i_bath : thresholds; i_solver : nat; i_sec : bool }.
Definition desc (f : frag) : item := It (site f) (wf_factor f) (bath f) (solver f) (is_secfrag f).

(** The weight of a wave function: 1 unless given. *)
Definition weight (w : option Z) : Z := match w with Some x => x | None => 1%Z end.

Section R.
Variable op : nat -> nat -> nat -> nat.
Variable mf_ok : nat -> nat -> bool.
Notation run := (run op mf_ok).

Definition move (tag k : nat) (d : item) : item := It (op tag k (i_site d)) (i_factor d) (i_bath d) (i_solver d) (i_sec d).
Definition plus_of (bno : option Q) (factor : Q) (sv : nat) (d : item) : item :=
  It (i_site d) (i_factor d) (match bno with Some t => TH (Some t) None None
                              | None => let f := option_map (fun t => t * factor)%Q in TH (f (th (i_bath d))) (f (th_occ (i_bath d))) (f (th_vir (i_bath d))) end) sv true.
Definition minus_of (sv : nat) (d : item) : item := It (i_site d) (Some (minus_factor (i_factor d))) (i_bath d) sv true.

Fixpoint expand (p : prog) : list item :=
  match p with
  | Skip | Raise => []
  | Seq p q => expand p ++ expand q
  | Try p => expand p
  | Add x w b => [It x w b 0 false]
  | Sym tag n p => expand p ++ flat_map (fun d => map (fun k => move tag k d) (seq 1 (n - 1))) (expand p)
  | Sec bno factor sv p => expand p ++ flat_map (fun d => [plus_of bno factor sv d; minus_of sv d]) (expand p)
  end.

(** No exceptions are caught inside the program. *)
Fixpoint plain (p : prog) : Prop :=
  match p with Try _ => False | Seq p q => plain p /\ plain q | Sym _ _ p => plain p | Sec _ _ _ p => plain p | _ => True end.

(** ** Lemmas on copies *)
Fixpoint row_of (tag k id : nat) (l : list frag) : list frag :=
  match l with [] => [] | p :: r => sym_copy op tag k id p :: row_of tag k (S id) r end.

Lemma row_len tag k l : forall id, length (row_of tag k id l) = length l.
Proof. induction l; simpl; auto. Qed.

Lemma sym_row_spec tag k l : forall id n row, sym_row op mf_ok tag k id l = (n, Some row) ->
  n = id + length l /\ row = row_of tag k id l /\ forall p, In p l -> op tag k (site p) <> site p.
Proof.
  induction l as [|p l IH]; intros id n row H; simpl in H.
  - injection H as <- <-. repeat split; auto; simpl; tauto.
  - destruct (Nat.eqb_spec (op tag k (site p)) (site p)); [discriminate|]. destruct (Nat.eqb k 1 && negb (mf_ok tag (site p)))%bool; [discriminate|].
    destruct (sym_row op mf_ok tag k (S id) l) as [n' [l'|]] eqn:E; [|discriminate]. injection H as <- <-.
    destruct (IH _ _ _ E) as (H1 & H2 & H3). split; [simpl; lia|]. split; [simpl; now f_equal|]. intros q [<-|Hq]; auto.
Qed.

Fixpoint rows_of (tag : nat) (ks : list nat) (id : nat) (l : list frag) : list (list frag) :=
  match ks with [] => [] | k :: r => row_of tag k id l :: rows_of tag r (id + length l) l end.

Lemma sym_rows_spec tag l : forall ks id n rows, sym_rows op mf_ok tag ks id l = (n, Some rows) ->
  n = id + length ks * length l /\ rows = rows_of tag ks id l /\ forall k p, In k ks -> In p l -> op tag k (site p) <> site p.
Proof.
  induction ks as [|k ks IH]; intros id n rows H; simpl in H.
  - injection H as <- <-. repeat split; auto; simpl; tauto.
  - destruct (sym_row op mf_ok tag k id l) as [n1 [row|]] eqn:E; [|discriminate]. destruct (sym_row_spec _ _ _ _ _ _ E) as (A1 & A2 & A3).
    destruct (sym_rows op mf_ok tag ks n1 l) as [n2 [rs|]] eqn:E2; [|discriminate]. injection H as <- <-.
    destruct (IH _ _ _ E2) as (B1 & B2 & B3). subst n1. split; [simpl; lia|]. split; [simpl; now f_equal|].
    intros k' p [<-|Hk] Hp; auto.
Qed.

Lemma by_parent_cons p l rows : by_parent (p :: l) rows =
  flat_map (fun row => match row with f :: _ => [f] | [] => [] end) rows ++ by_parent l (map (@tl frag) rows).
Proof.
  unfold by_parent. cbn [length seq flat_map]. f_equal.
  - apply flat_map_ext. intros [|f r]; reflexivity.
  - rewrite <- seq_shift. rewrite flat_map_concat_map, map_map, <- flat_map_concat_map. apply flat_map_ext. intros j.
    rewrite flat_map_concat_map, (flat_map_concat_map _ (map _ rows)), map_map. f_equal. apply map_ext. intros [|f r]; simpl; auto. destruct j; auto.
Qed.

Lemma tl_rows tag p l : forall ks id, map (@tl frag) (rows_of tag ks id (p :: l)) =
  map (fun kr => row_of tag (fst kr) (snd kr) l) (combine ks (map (fun i => S id + i * S (length l)) (seq 0 (length ks)))).
Proof.
  induction ks as [|k ks IH]; intros id; auto. cbn [rows_of map length seq combine row_of tl fst snd]. f_equal.
  - f_equal. lia.
  - rewrite IH. f_equal. f_equal. rewrite <- seq_shift, map_map. apply map_ext. intros i. simpl length. nia.
Qed.

(** Copies listed by parent, whatever their numbers. *)
Definition rows_gen (tag : nat) (ki : list (nat * nat)) (l : list frag) := map (fun kr => row_of tag (fst kr) (snd kr) l) ki.

Lemma rows_of_gen tag l : forall ks id, rows_of tag ks id l = rows_gen tag (combine ks (map (fun i => id + i * length l) (seq 0 (length ks)))) l.
Proof.
  induction ks as [|k ks IH]; intros id; auto. unfold rows_gen. cbn [rows_of length seq map combine fst snd]. f_equal.
  - f_equal. lia.
  - rewrite IH. unfold rows_gen. f_equal. f_equal. rewrite <- seq_shift, map_map. apply map_ext. intros i. nia.
Qed.

Lemma by_parent_desc tag l : forall ki, map desc (by_parent l (rows_gen tag ki l)) =
  flat_map (fun d => map (fun k => move tag k d) (map fst ki)) (map desc l).
Proof.
  induction l as [|p l IH]; intros ki; auto. rewrite by_parent_cons, map_app. cbn [map flat_map]. f_equal.
  - unfold rows_gen. induction ki as [|[k i] ki IHk]; auto. cbn [map flat_map row_of app]. now f_equal.
  - replace (map (tl (A:=frag)) (rows_gen tag ki (p :: l))) with (rows_gen tag (map (fun kr => (fst kr, S (snd kr))) ki) l).
    + rewrite IH. rewrite map_map. simpl. auto.
    + unfold rows_gen. rewrite !map_map. reflexivity.
Qed.

Lemma map_fst_combine {A B} : forall (a : list A) (b : list B), length a = length b -> map fst (combine a b) = a.
Proof. induction a as [|x a IH]; intros [|y b] H; simpl in *; auto; try lia. f_equal. apply IH. lia. Qed.

Lemma copies_desc tag ks id l : map desc (by_parent l (rows_of tag ks id l)) = flat_map (fun d => map (fun k => move tag k d) ks) (map desc l).
Proof. rewrite rows_of_gen, by_parent_desc. rewrite map_fst_combine; auto. now rewrite map_length, seq_length. Qed.

Lemma by_parent_perm : forall l rows, (forall r, In r rows -> length r = length l) -> Permutation (by_parent l rows) (concat rows).
Proof.
  induction l as [|p l IH]; intros rows H.
  - unfold by_parent. simpl. induction rows as [|r rows IHr]; simpl; auto. rewrite (proj1 (length_zero_iff_nil r)) by (apply H; simpl; auto). apply IHr. intros; apply H; simpl; auto.
  - rewrite by_parent_cons. rewrite IH.
    + assert (G : forall rows, (forall r, In r rows -> length r = length (p :: l)) -> Permutation (flat_map (fun row => match row with f :: _ => [f] | [] => [] end) rows ++ concat (map (@tl frag) rows)) (concat rows)).
      { clear. induction rows as [|r rows IHr]; intros H; simpl; auto. assert (length r = length (p :: l)) by (apply H; simpl; auto). destruct r as [|f r]; [simpl in *; lia|].
        simpl. constructor. rewrite Permutation_app_comm, <- app_assoc. apply Permutation_app_head. rewrite Permutation_app_comm. apply IHr. intros; apply H; simpl; auto. }
      apply G. auto.
    + intros r Hr. apply in_map_iff in Hr. destruct Hr as (r' & <- & Hr'). apply H in Hr'. destruct r'; simpl in *; lia.
Qed.

Lemma row_ids tag k l : forall id, map fid (row_of tag k id l) = seq id (length l).
Proof. induction l as [|p l IH]; intros id; simpl; auto. f_equal. apply IH. Qed.

Lemma rows_ids tag l : forall ks id, map fid (concat (rows_of tag ks id l)) = seq id (length ks * length l).
Proof.
  induction ks as [|k ks IH]; intros id; auto. cbn [rows_of concat length]. rewrite map_app, row_ids, IH. symmetry.
  replace (S (length ks) * length l) with (length l + length ks * length l) by lia. now rewrite seq_app.
Qed.

Lemma rows_length tag l : forall ks id r, In r (rows_of tag ks id l) -> length r = length l.
Proof. induction ks as [|k ks IH]; intros id r H; simpl in H; [tauto|]. destruct H as [<-|H]; [apply row_len|eauto]. Qed.

Lemma copies_ids tag ks id l : Permutation (map fid (by_parent l (rows_of tag ks id l))) (seq id (length ks * length l)).
Proof. rewrite <- (rows_ids tag l ks id). apply Permutation_map. apply by_parent_perm. intros r. apply rows_length. Qed.

Lemma copies_parent tag ks id l f : In f (by_parent l (rows_of tag ks id l)) -> exists p k i, In p l /\ In k ks /\ f = sym_copy op tag k i p.
Proof.
  intros H. apply (Permutation_in f (by_parent_perm l _ (fun r => rows_length tag l ks id r))) in H. apply in_concat in H. destruct H as (row & H1 & H2).
  revert id H1. induction ks as [|k ks IH]; intros id H1; simpl in H1; [tauto|]. destruct H1 as [<-|H1].
  - assert (G : forall l' i, In f (row_of tag k i l') -> exists p j, In p l' /\ f = sym_copy op tag k j p).
    { clear. induction l' as [|q l' IH]; intros i H; simpl in H; [tauto|]. destruct H as [<-|H].
      - exists q, i. simpl; auto.
      - destruct (IH _ H) as (p & j & A & B). exists p, j. simpl; auto. }
    destruct (G l id H2) as (p & j & A & B). exists p, k, j. simpl. auto.
  - destruct (IH _ H1) as (p & k' & j & A & B & C). exists p, k', j. simpl. auto.
Qed.

(** ** Secondary fragments *)
Definition pair_of (bno : option Q) (factor : Q) (sv : nat) (f plus minus : frag) : Prop :=
  desc plus = plus_of bno factor sv (desc f) /\ desc minus = minus_of sv (desc f) /\ parent plus = None /\ parent minus = None.
Fixpoint pairs (Pr : frag -> frag -> frag -> Prop) (P S : list frag) : Prop :=
  match P, S with
  | [], [] => True
  | f :: P', a :: b :: S' => Pr f a b /\ pairs Pr P' S'
  | _, _ => False
  end.

Lemma create_secondary_spec bno factor sv : forall l id env n e new, create_secondary bno factor sv id env l = (n, e, Some new) ->
  pairs (pair_of bno factor sv) l new /\ n = id + 2 * length l /\ map fid new = seq id (2 * length l) /\ (forall f, In f l -> parent f = None) /\
  map desc new = flat_map (fun d => [plus_of bno factor sv d; minus_of sv d]) (map desc l).
Proof.
  induction l as [|f l IH]; intros id env n e new H; simpl in H.
  - injection H as <- <- <-. repeat split; auto; simpl; tauto.
  - destruct (parent f) eqn:P; [discriminate|]. destruct (create_secondary bno factor sv (S (S id)) _ l) as [[n' e'] [l'|]] eqn:E; [|discriminate].
    injection H as <- <- <-. destruct (IH _ _ _ _ _ E) as (H1 & H2 & H3 & H4 & H5). split.
    + cbn [pairs]. split; auto. unfold pair_of, desc, plus_of, minus_of, sec_bath. simpl. destruct bno; repeat split.
    + split; [simpl in *; lia|]. split.
      * replace (2 * length (f :: l)) with (S (S (2 * length l))) by (simpl; lia). cbn [map fid seq]. now rewrite H3.
      * split; [intros g [<-|Hg]; auto|]. cbn [map flat_map app]. rewrite H5. unfold plus_of, minus_of, sec_bath. destruct bno; reflexivity.
Qed.

Lemma create_secondary_env bno factor sv : forall l id env n e new, create_secondary bno factor sv id env l = (n, e, Some new) ->
  (forall f, In f l -> fid f < id) -> NoDup (map fid l) ->
  (forall i, i < id -> ~ In i (map fid l) -> e i = env i) /\ (forall f, In f l -> e (fid f) = false) /\
  pairs (fun f a b => e (fid a) = true /\ e (fid b) = false) l new.
Proof.
  induction l as [|f l IH]; intros id env n e new H L ND; simpl in H.
  - injection H as <- <- <-. repeat split; auto; simpl; tauto.
  - destruct (parent f) eqn:P; [discriminate|]. set (env' := upd (upd (upd env id true) (S id) false) (fid f) false) in *.
    destruct (create_secondary bno factor sv (S (S id)) env' l) as [[n' e'] [l'|]] eqn:E; [|discriminate].
    injection H as <- <- <-. inversion ND; subst. assert (Lf : fid f < id) by (apply L; simpl; auto).
    destruct (IH _ _ _ _ _ E) as (H1' & H2' & H3'); auto.
    { intros g Hg. assert (fid g < id) by (apply L; simpl; auto). lia. }
    split; [|split].
    + intros i Hi Hn. simpl in Hn. rewrite H1' by (try lia; tauto). unfold env', upd.
      destruct (Nat.eqb_spec i (fid f)); [exfalso; apply Hn; auto|]. destruct (Nat.eqb_spec i (S id)); [lia|]. destruct (Nat.eqb_spec i id); [lia|]. auto.
    + intros g [<-|Hg]; auto. rewrite H1' by (auto; lia). unfold env', upd. now rewrite Nat.eqb_refl.
    + cbn [pairs]. split; auto. cbn [fid].
      assert (X : forall i, i = id \/ i = S id -> ~ In i (map fid l)).
      { intros i Hi Hin. apply in_map_iff in Hin. destruct Hin as (g & <- & Hg). assert (fid g < id) by (apply L; simpl; auto). lia. }
      rewrite !H1' by (auto; lia). unfold env', upd. rewrite Nat.eqb_refl.
      destruct (Nat.eqb_spec id (fid f)); [lia|]. destruct (Nat.eqb_spec (S id) (fid f)); [lia|]. destruct (Nat.eqb_spec id (S id)); [lia|]. rewrite Nat.eqb_refl. auto.
Qed.

(** ** The contexts *)
(** [L] is added to the state [s] by a program, giving [s']. *)
Record added (s s' : state) (L : list frag) : Prop := {
  ad_frags : frags s' = frags s ++ L;
  ad_sym : sym_register s' = map (fun l => l ++ L) (sym_register s);
  ad_sec : secfrag_register s' = match secfrag_register s with [] => [] | l :: r => (l ++ L) :: r end;
  ad_next : next_id s <= next_id s';
  ad_ids : NoDup (map fid L) /\ (forall f, In f L -> next_id s <= fid f < next_id s');
  ad_parents : forall f i, In f L -> parent f = Some i -> i < fid f /\ exists g tag k, In g L /\ fid g = i /\ desc f = move tag k (desc g);
  ad_env : forall i, i < next_id s -> envelop s' i = envelop s i
}.

Lemma copy_env_old env l i : ~ In i (map fid l) -> copy_env env l i = env i.
Proof.
  intros H. unfold copy_env. destruct (find _ l) as [f|] eqn:E; auto. apply find_some in E. destruct E as [E1 E2]. apply Nat.eqb_eq in E2.
  exfalso. apply H. apply in_map_iff. eauto.
Qed.

Lemma map_last {A} (L : list A) l : map (fun x => x ++ L) (l ++ [[]]) = map (fun x => x ++ L) l ++ [L].
Proof. now rewrite map_app. Qed.

Lemma pop_last {A} (l : list (list A)) x : pop [] (l ++ [x]) = (x, l).
Proof. unfold pop. now rewrite last_last, removelast_last. Qed.

Lemma NoDup_app {A} (l1 l2 : list A) : NoDup l1 -> NoDup l2 -> (forall x, In x l1 -> In x l2 -> False) -> NoDup (l1 ++ l2).
Proof.
  induction l1 as [|a l1 IH]; simpl; auto. intros H1 H2 H3. inversion H1; subst. constructor.
  - rewrite in_app_iff. intros [|]; [auto|]. eapply H3; eauto.
  - apply IH; auto. intros. eapply H3; eauto.
Qed.

Lemma run_added : forall p s s', plain p -> run p s = (s', true) -> exists L, added s s' L /\ map desc L = expand p /\
  (secfrag_register s <> [] -> forall f, In f L -> parent f = None).
Proof.
  induction p as [|p IHp q IHq| |p IHp|x w b|tag n p IHp|bno factor sv p IHp]; intros s s' PL H; cbn [M_Contexts.run] in H.
  - injection H as <-. exists []. split; [|split; [auto|intros _ f []]]. constructor; auto.
    + now rewrite app_nil_r.
    + symmetry. rewrite <- (map_id (sym_register s)) at 2. apply map_ext. intros. apply app_nil_r.
    + destruct (secfrag_register s); auto. now rewrite app_nil_r.
    + split; [constructor|intros f []].
    + intros f i [].
  - destruct PL as [P1 P2]. destruct (run p s) as [s1 [|]] eqn:E1; [|discriminate].
    destruct (IHp _ _ P1 E1) as (L1 & A1 & D1 & Q1). destruct (IHq _ _ P2 H) as (L2 & A2 & D2 & Q2). exists (L1 ++ L2). split; [|split].
    + destruct A1 as [a1 a2 a3 a4 [a5 a5'] a6 a7], A2 as [b1 b2 b3 b4 [b5 b5'] b6 b7]. constructor.
      * rewrite b1, a1. now rewrite app_assoc.
      * rewrite b2, a2, map_map. apply map_ext. intros. now rewrite app_assoc.
      * rewrite b3, a3. destruct (secfrag_register s); auto. now rewrite app_assoc.
      * lia.
      * split.
        -- rewrite map_app. apply NoDup_app; auto. intros i Hi Hj. apply in_map_iff in Hi. destruct Hi as (f & <- & Hf).
           apply in_map_iff in Hj. destruct Hj as (g & Eg & Hg). specialize (a5' f Hf). specialize (b5' g Hg). lia.
        -- intros f Hf. apply in_app_iff in Hf. destruct Hf as [Hf|Hf]; [specialize (a5' f Hf)|specialize (b5' f Hf)]; lia.
      * intros f i Hf Ei. apply in_app_iff in Hf. destruct Hf as [Hf|Hf]; [destruct (a6 f i Hf Ei) as (h1 & g & tag & k & h2 & h3 & h4)|destruct (b6 f i Hf Ei) as (h1 & g & tag & k & h2 & h3 & h4)];
          (split; [auto|]); exists g, tag, k; rewrite in_app_iff; auto.
      * intros i Hi. rewrite b7 by lia. now apply a7.
    + rewrite map_app, D1, D2. reflexivity.
    + intros NE f Hf. apply in_app_iff in Hf. destruct Hf as [Hf|Hf]; [apply Q1; auto|]. apply Q2; auto. destruct A1 as [_ _ a3 _ _ _ _]. rewrite a3. destruct (secfrag_register s); congruence.
  - discriminate.
  - destruct PL.
  - injection H as <-. set (f := F (next_id s) x None w b 0 false). exists [f]. split; [|split; [reflexivity|intros _ g [<-|[]]; reflexivity]]. constructor; auto; cbn [frags sym_register secfrag_register next_id envelop].
    + lia.
    + split; [repeat constructor; simpl; tauto|]. intros g [<-|[]]. simpl. lia.
    + intros g i [<-|[]] E. discriminate.
    + intros i Hi. unfold upd. destruct (Nat.eqb_spec i (next_id s)); auto. lia.
  - destruct (secfrag_register s) as [|z zr] eqn:SE; [|discriminate].
    set (s0 := St (frags s) (sym_register s ++ [[]]) [] (next_id s) (envelop s)) in *.
    destruct (run p s0) as [s1 [|]] eqn:E1; [|discriminate]. destruct (IHp _ _ PL E1) as (L & A & D & _). destruct A as [a1 a2 a3 a4 [a5 a5'] a6 a7]. cbn [s0 frags sym_register secfrag_register next_id envelop] in *.
    rewrite a2, map_last, pop_last in H. destruct (sym_rows op mf_ok tag (seq 1 (n - 1)) (next_id s1) L) as [m [rows|]] eqn:ER; [|discriminate].
    injection H as <-. destruct (sym_rows_spec _ _ _ _ _ _ ER) as (R1 & R2 & R3). set (new := by_parent L rows) in *.
    pose proof (copies_ids tag (seq 1 (n - 1)) (next_id s1) L) as CI. rewrite <- R2 in CI. fold new in CI.
    assert (NR : forall f, In f new -> next_id s1 <= fid f < m).
    { intros f Hf. assert (In (fid f) (seq (next_id s1) (length (seq 1 (n - 1)) * length L))) as I by (eapply Permutation_in; [exact CI|apply in_map; auto]). apply in_seq in I. lia. }
    exists (L ++ new). split; [|split; [|intros X; congruence]].
    + constructor; cbn [frags sym_register secfrag_register next_id envelop].
      * rewrite a1. now rewrite app_assoc.
      * rewrite map_map. apply map_ext. intros. now rewrite app_assoc.
      * now rewrite SE, a3.
      * lia.
      * split.
        -- rewrite map_app. apply NoDup_app; auto; [eapply Permutation_NoDup; [symmetry; exact CI|apply seq_NoDup]|].
           intros i Hi Hj. apply in_map_iff in Hi. destruct Hi as (f & <- & Hf). apply in_map_iff in Hj. destruct Hj as (g & Eg & Hg). specialize (a5' f Hf). specialize (NR g Hg). lia.
        -- intros f Hf. apply in_app_iff in Hf. destruct Hf as [Hf|Hf]; [specialize (a5' f Hf)|specialize (NR f Hf)]; lia.
      * intros f i Hf Ei. apply in_app_iff in Hf. destruct Hf as [Hf|Hf].
        -- destruct (a6 f i Hf Ei) as (h1 & g & tg & k & h2 & h3 & h4). split; auto. exists g, tg, k. rewrite in_app_iff. auto.
        -- specialize (NR f Hf). unfold new in Hf. rewrite R2 in Hf. destruct (copies_parent _ _ _ _ _ Hf) as (g & k & j & g1 & g2 & ->). cbn [parent sym_copy] in Ei. injection Ei as <-.
           specialize (a5' g g1). split; [lia|]. exists g, tag, k. rewrite in_app_iff. auto.
      * intros i Hi. rewrite copy_env_old; auto. intros X. apply in_map_iff in X. destruct X as (f & <- & Hf). specialize (NR f Hf). lia.
    + rewrite map_app. cbn [expand]. rewrite D. f_equal. unfold new. rewrite R2, copies_desc, D. reflexivity.
  - destruct (secfrag_register s) as [|z zr] eqn:SE; [|discriminate].
    set (s0 := St (frags s) (sym_register s) [[]] (next_id s) (envelop s)) in *.
    destruct (run p s0) as [s1 [|]] eqn:E1; [|discriminate]. destruct (IHp _ _ PL E1) as (L & A & D & NP). destruct A as [a1 a2 a3 a4 [a5 a5'] a6 a7]. cbn [s0 frags sym_register secfrag_register next_id envelop] in *.
    rewrite a3 in H. cbn [app] in H. change (pop [] [L]) with (L, @nil (list frag)) in H. cbv beta iota zeta in H.
    destruct (create_secondary bno factor sv (next_id s1) (envelop s1) L) as [[m e] [new|]] eqn:EC; [|discriminate]. injection H as <-.
    destruct (create_secondary_spec _ _ _ _ _ _ _ _ _ EC) as (C1 & C2 & C3 & C4 & C5).
    assert (NR : forall f, In f new -> next_id s1 <= fid f < m).
    { intros f Hf. assert (In (fid f) (seq (next_id s1) (2 * length L))) as I by (rewrite <- C3; apply in_map; auto). apply in_seq in I. lia. }
    destruct (create_secondary_env _ _ _ _ _ _ _ _ _ EC) as (V1 & V2 & V3); auto.
    { intros f Hf. specialize (a5' f Hf). lia. }
    exists (L ++ new). split; [|split; [|intros X; congruence]].
    + constructor; cbn [frags sym_register secfrag_register next_id envelop].
      * rewrite a1. now rewrite app_assoc.
      * rewrite a2, map_map. apply map_ext. intros. now rewrite app_assoc.
      * now rewrite SE.
      * lia.
      * split.
        -- rewrite map_app. apply NoDup_app; auto; [rewrite C3; apply seq_NoDup|].
           intros i Hi Hj. apply in_map_iff in Hi. destruct Hi as (f & <- & Hf). apply in_map_iff in Hj. destruct Hj as (g & Eg & Hg). specialize (a5' f Hf). specialize (NR g Hg). lia.
        -- intros f Hf. apply in_app_iff in Hf. destruct Hf as [Hf|Hf]; [specialize (a5' f Hf)|specialize (NR f Hf)]; lia.
      * intros f i Hf Ei. apply in_app_iff in Hf. destruct Hf as [Hf|Hf].
        -- rewrite C4 in Ei by auto. discriminate.
        -- exfalso. clear - C1 Hf Ei. revert L C1. induction new as [new IH] using (well_founded_induction (Wf_nat.well_founded_ltof _ (@length frag))). intros L C1.
           destruct L as [|g L], new as [|a [|b new]]; simpl in *; try tauto. destruct C1 as [(_ & _ & pa & pb) C1].
           destruct Hf as [<-|[<-|Hf]]; [congruence|congruence|]. eapply (IH new); eauto. unfold Wf_nat.ltof. simpl. lia.
      * intros i Hi. rewrite V1; [apply a7; auto|lia|]. intros X. apply in_map_iff in X. destruct X as (f & <- & Hf). specialize (a5' f Hf). lia.
    + rewrite map_app. cbn [expand]. rewrite D. f_equal. now rewrite C5, D.
Qed.

(** Whatever contexts are nested in whatever way, if no exception is raised exactly the fragments asked for are added,
    in order, with new numbers; the registers of the enclosing contexts get the same fragments and are otherwise as
    before; existing fragments do not change; the parent of a symmetry copy was made before the copy and is related to
    it by a symmetry operation. *)
Theorem C39_contexts : forall p s s', plain p -> run p s = (s', true) -> exists L, frags s' = frags s ++ L /\ map desc L = expand p /\
  sym_register s' = map (fun l => l ++ L) (sym_register s) /\ length (secfrag_register s') = length (secfrag_register s) /\
  NoDup (map fid L) /\ (forall f, In f L -> next_id s <= fid f < next_id s') /\ (forall i, i < next_id s -> envelop s' i = envelop s i) /\
  (forall f i, In f L -> parent f = Some i -> i < fid f /\ exists g tag k, In g L /\ fid g = i /\ desc f = move tag k (desc g)).
Proof.
  intros p s s' PL H. destruct (run_added p s s' PL H) as (L & A & D & _). destruct A as [a1 a2 a3 a4 [a5 a5'] a6 a7]. exists L.
  split; auto. split; auto. split; auto. split; [rewrite a3; destruct (secfrag_register s); auto|]. split; auto.
Qed.

(** A symmetry context of order n makes n fragments of each of its fragments, one for every operation. *)
Theorem C39_orbit : forall tag n p, n <> 0 -> length (expand (Sym tag n p)) = n * length (expand p) /\
  forall d, In d (expand (Sym tag n p)) <-> exists e, In e (expand p) /\ (d = e \/ exists k, 1 <= k < n /\ d = move tag k e).
Proof.
  intros tag n p Hn. cbn [expand]. split.
  - rewrite app_length. replace (length (flat_map _ (expand p))) with ((n - 1) * length (expand p)).
    + nia.
    + induction (expand p) as [|d l IH]; simpl; [lia|]. rewrite app_length, map_length, seq_length, <- IH. lia.
  - intros d. rewrite in_app_iff, in_flat_map. split.
    + intros [H|(e & He & H)]; [exists d; auto|]. apply in_map_iff in H. destruct H as (k & <- & Hk). apply in_seq in Hk. exists e. split; auto. right. exists k. split; auto. lia.
    + intros (e & He & [->|(k & Hk & ->)]); auto. right. exists e. split; auto. apply in_map_iff. exists k. rewrite in_seq. split; auto. lia.
Qed.

(** If the operations of a context are the powers of one invertible operation, the copies of a fragment and the fragment
    are at different places, although a copy is only compared with the fragment it is made from. *)
Theorem C39_copies_distinct : forall tag n p s s' (r : nat -> nat), (forall k x, op tag k x = Nat.iter k r x) -> (forall x y, r x = r y -> x = y) ->
  plain p -> run (Sym tag n p) s = (s', true) -> forall d j k, In d (expand p) -> j < k -> k < n -> op tag j (i_site d) <> op tag k (i_site d).
Proof.
  intros tag n p s s' r Hop Hr PL H d j k Hd Hj Hk E. cbn [M_Contexts.run] in H.
  destruct (secfrag_register s) as [|z zr] eqn:SE; [|discriminate].
  set (s0 := St (frags s) (sym_register s ++ [[]]) [] (next_id s) (envelop s)) in *.
  destruct (run p s0) as [s1 [|]] eqn:E1; [|discriminate]. destruct (run_added p s0 s1 PL E1) as (L & A & D & _). destruct A as [a1 a2 a3 a4 _ a6 a7]. cbn [s0 frags sym_register secfrag_register next_id envelop] in *.
  rewrite a2, map_last, pop_last in H. destruct (sym_rows op mf_ok tag (seq 1 (n - 1)) (next_id s1) L) as [m [rows|]] eqn:ER; [|discriminate].
  destruct (sym_rows_spec _ _ _ _ _ _ ER) as (_ & _ & R3). rewrite <- D in Hd. apply in_map_iff in Hd. destruct Hd as (f & <- & Hf).
  apply (R3 (k - j) f); auto; [apply in_seq; lia|]. rewrite Hop. rewrite !Hop in E. cbn [desc i_site] in E. replace k with (j + (k - j)) in E by lia.
  revert E. generalize (k - j). intros q E. clear - E Hr. symmetry.
  assert (I : forall j a b, Nat.iter j r a = Nat.iter j r b -> a = b) by (induction j0; simpl; auto).
  apply (I j). rewrite E. clear. induction j; simpl; auto.
Qed.

(** Leaving the fragmentation adds its fragments to the embedding, and with a translation symmetry also their copies. *)
Theorem C39_exit : forall translation p s emb indent s' emb' indent' , plain p -> fragmentation op mf_ok translation p s emb indent = (s', emb', indent', true) ->
  indent' = indent /\ exists L, emb' = emb ++ frags s ++ L /\ map desc (frags s ++ L) =
    match translation with
    | None => map desc (frags s) ++ expand p
    | Some (tag, n) => let E := map desc (frags s) ++ expand p in E ++ flat_map (fun d => map (fun k => move tag k d) (seq 1 (n - 1))) E
    end.
Proof.
  intros translation p s emb indent s' emb' indent' PL H. unfold fragmentation in H. destruct (run p s) as [s1 [|]] eqn:E1; [|discriminate].
  destruct (run_added p s s1 PL E1) as (L & A & D & _). destruct A as [a1 a2 a3 a4 _ a6 a7].
  destruct translation as [[tag n]|].
  - destruct (sym_rows op mf_ok tag (seq 1 (n - 1)) (next_id s1) (frags s1)) as [m [rows|]] eqn:ER; [|discriminate].
    destruct (sym_rows_spec _ _ _ _ _ _ ER) as (_ & R2 & _). injection H as <- <- <-. split; auto. exists (L ++ by_parent (frags s1) rows).
    split; [rewrite a1, <- !app_assoc; reflexivity|]. cbv zeta. rewrite <- D, <- map_app, <- a1, app_assoc, <- a1, map_app, R2, copies_desc. reflexivity.
  - injection H as <- <- <-. split; auto. exists L. rewrite a1. split; auto. now rewrite map_app, D.
Qed.

(** ** Secondary fragments *)
(** A contribution that depends on place, bath and solver. *)
Definition total (E : nat -> thresholds -> nat -> Z) (l : list item) : Z :=
  fold_right (fun d acc => weight (i_factor d) * E (i_site d) (i_bath d) (i_solver d) + acc)%Z 0%Z l.

Lemma total_app E l1 l2 : total E (l1 ++ l2) = (total E l1 + total E l2)%Z.
Proof. induction l1 as [|d l1 IH]; simpl; auto. rewrite IH. lia. Qed.

(** The fragments of a context with secondary fragments contribute what its own fragments contribute, plus the correction
    of the larger bath with the cheap solver: each fragment is counted exactly once. *)
Theorem C40_total : forall bno factor sv p s s' E, plain p -> run (Sec bno factor sv p) s = (s', true) ->
  (forall d, In d (expand p) -> i_factor d <> Some 0%Z) ->
  exists L, frags s' = frags s ++ L /\ total E (map desc L) = fold_right (fun d acc =>
    weight (i_factor d) * (E (i_site d) (i_bath d) (i_solver d) + (E (i_site d) (i_bath (plus_of bno factor sv d)) sv - E (i_site d) (i_bath d) sv)) + acc)%Z 0%Z (expand p).
Proof.
  intros bno factor sv p s s' E PL H NZ. destruct (run_added (Sec bno factor sv p) s s' PL H) as (L & A & D & _). exists L. split; [apply A|].
  rewrite D. cbn [expand]. rewrite total_app.
  set (l := expand p) in *. clearbody l. clear - NZ. induction l as [|d l IH]; [reflexivity|].
  cbn [fold_right flat_map app]. rewrite <- IH by (intros; apply NZ; simpl; auto). unfold total at 1 2. cbn [fold_right]. fold (total E l). fold (total E (flat_map (fun d0 => [plus_of bno factor sv d0; minus_of sv d0]) l)).
  assert (W : weight (Some (minus_factor (i_factor d))) = (- weight (i_factor d))%Z).
  { assert (i_factor d <> Some 0%Z) by (apply NZ; simpl; auto). unfold minus_factor. destruct (i_factor d) as [x|]; simpl; auto. destruct (Z.eqb_spec x 0); subst; [congruence|auto]. }
  cbn [minus_of plus_of i_factor i_site i_bath i_solver]. rewrite W. ring.
Qed.

(** Only the fragments with the larger bath are envelopes; every fragment has exactly one. *)
Theorem C40_envelop : forall bno factor sv p s s', plain p -> run (Sec bno factor sv p) s = (s', true) ->
  exists P S, frags s' = frags s ++ P ++ S /\ map desc P = expand p /\ (forall f, In f P -> envelop s' (fid f) = false) /\
  pairs (fun f a b => desc a = plus_of bno factor sv (desc f) /\ desc b = minus_of sv (desc f) /\ envelop s' (fid a) = true /\ envelop s' (fid b) = false) P S.
Proof.
  intros bno factor sv p s s' PL H. cbn [M_Contexts.run] in H.
  destruct (secfrag_register s) as [|z zr] eqn:SE; [|discriminate].
  set (s0 := St (frags s) (sym_register s) [[]] (next_id s) (envelop s)) in *.
  destruct (run p s0) as [s1 [|]] eqn:E1; [|discriminate]. destruct (run_added p _ _ PL E1) as (L & A & D & NP). destruct A as [a1 a2 a3 a4 [a5 a5'] a6 a7]. cbn [s0 frags sym_register secfrag_register next_id envelop] in *.
  rewrite a3 in H. cbn [app] in H. change (pop [] [L]) with (L, @nil (list frag)) in H. cbv beta iota zeta in H.
  destruct (create_secondary bno factor sv (next_id s1) (envelop s1) L) as [[m e] [new|]] eqn:EC; [|discriminate]. injection H as <-.
  destruct (create_secondary_spec _ _ _ _ _ _ _ _ _ EC) as (C1 & C2 & C3 & C4 & C5).
  destruct (create_secondary_env _ _ _ _ _ _ _ _ _ EC) as (V1 & V2 & V3); auto.
  { intros f Hf. specialize (a5' f Hf). lia. }
  exists L, new. cbn [frags envelop]. rewrite a1, app_assoc. split; auto. split; auto. split; auto.
  clear - C1 V3. revert new C1 V3. induction L as [|f L IH]; intros [|a [|b new]] C1 V3; simpl in *; try tauto.
  destruct C1 as [(x1 & x2 & _) C1], V3 as [[y1 y2] V3]. split; auto.
Qed.

(** The copy of a fragment made by a symmetry context is an envelope iff the fragment is one. *)
Theorem C40_symmetric : forall tag n p s s', plain p -> run (Sym tag n p) s = (s', true) -> exists P C, frags s' = frags s ++ P ++ C /\ map desc P = expand p /\
  forall c, In c C -> exists f k, In f P /\ parent c = Some (fid f) /\ 1 <= k < n /\ desc c = move tag k (desc f) /\ envelop s' (fid c) = envelop s' (fid f).
Proof.
  intros tag n p s s' PL H. cbn [M_Contexts.run] in H. destruct (secfrag_register s) as [|z zr] eqn:SE; [|discriminate].
  set (s0 := St (frags s) (sym_register s ++ [[]]) [] (next_id s) (envelop s)) in *.
  destruct (run p s0) as [s1 [|]] eqn:E1; [|discriminate]. destruct (run_added p _ _ PL E1) as (L & A & D & _). destruct A as [a1 a2 a3 a4 [a5 a5'] a6 a7]. cbn [s0 frags sym_register secfrag_register next_id envelop] in *.
  rewrite a2, map_last, pop_last in H. destruct (sym_rows op mf_ok tag (seq 1 (n - 1)) (next_id s1) L) as [m [rows|]] eqn:ER; [|discriminate].
  injection H as <-. destruct (sym_rows_spec _ _ _ _ _ _ ER) as (R1 & R2 & R3). set (new := by_parent L rows) in *.
  pose proof (copies_ids tag (seq 1 (n - 1)) (next_id s1) L) as CI. rewrite <- R2 in CI. fold new in CI.
  assert (NDN : NoDup (map fid new)) by (eapply Permutation_NoDup; [symmetry; exact CI|apply seq_NoDup]).
  assert (NR : forall f, In f new -> next_id s1 <= fid f).
  { intros f Hf. assert (In (fid f) (seq (next_id s1) (length (seq 1 (n - 1)) * length L))) as I by (eapply Permutation_in; [exact CI|apply in_map; auto]). apply in_seq in I. lia. }
  exists L, new. cbn [frags envelop]. rewrite a1, app_assoc. split; auto. split; auto. intros c Hc. assert (Hc' := Hc). unfold new in Hc. rewrite R2 in Hc.
  destruct (copies_parent _ _ _ _ _ Hc) as (f & k & j & f1 & f2 & ->). apply in_seq in f2. exists f, k. split; auto. split; auto. split; [lia|]. split; auto.
  rewrite (copy_env_old _ _ (fid f)).
  2:{ intros X. apply in_map_iff in X. destruct X as (g & Eg & Hg). specialize (NR g Hg). specialize (a5' f f1). lia. }
  unfold copy_env. destruct (find (fun g => fid g =? fid (sym_copy op tag k j f)) new) as [g|] eqn:Fd.
  - apply find_some in Fd. destruct Fd as [g1 g2]. apply Nat.eqb_eq in g2.
    assert (g = sym_copy op tag k j f) as ->; [|reflexivity].
    clear - NDN g1 g2 Hc'. induction new as [|h new IH]; [destruct g1|]. simpl in NDN. inversion NDN; subst.
    destruct g1 as [->|g1], Hc' as [->|Hc']; auto.
    + exfalso. apply H1. rewrite g2. now apply in_map.
    + exfalso. apply H1. rewrite <- g2. now apply in_map.
  - exfalso. pose proof (find_none _ _ Fd _ Hc') as X. cbv beta in X. rewrite Nat.eqb_refl in X. discriminate.
Qed.
End R.

(** ** Findings *)
Definition noth : thresholds := TH None None None.
Definition init : state := St [] [] [] 0 (fun _ => true).
Definition swap01 (tag k x : nat) : nat := Nat.iter k (fun y => match y with 0 => 1 | 1 => 0 | y => y end) x.
Definition ok_mf (tag x : nat) : bool := true.

(** Finding: nesting the same symmetry twice is not noticed, and adds the fragments twice. *)
Theorem C39_overlap_refuted : exists p s', plain p /\ run swap01 ok_mf p init = (s', true) /\ ~ NoDup (map site (frags s')).
Proof.
  exists (Sym 0 2 (Sym 0 2 (Add 0 None noth))). eexists. split; [simpl; auto|]. split; [vm_compute; reflexivity|].
  vm_compute. intros H. inversion H; subst. inversion H3; subst. simpl in *. tauto.
Qed.

(** Finding: after an exception inside a context, which the user handles, the fragments made so far stay, without their
    symmetry copies; and after one inside secondary fragments no symmetry context can be entered any more. *)
Theorem C39_exception_refuted :
  (exists s', run swap01 ok_mf (Try (Sym 0 2 (Seq (Add 0 None noth) Raise))) init = (s', true) /\ map site (frags s') = [0] /\ sym_register s' <> []) /\
  (exists s', run swap01 ok_mf (Try (Sec None 1%Q 1 Raise)) init = (s', true) /\ frags s' = [] /\
     snd (run swap01 ok_mf (Sym 0 2 (Add 0 None noth)) s') = false /\ snd (run swap01 ok_mf (Sym 0 2 (Add 0 None noth)) init) = true).
Proof.
  split; eexists; (split; [vm_compute; reflexivity|]); split; vm_compute; auto. discriminate.
Qed.

(** Finding: an exception inside a fragmentation leaves the log indented; entering a fragmentation again adds all its
    fragments again. *)
Theorem C39_exit_refuted :
  (forall op mf_ok tr s emb indent, let '(_, emb', indent', ok) := fragmentation op mf_ok tr Raise s emb indent in emb' = emb /\ ok = false /\ indent' = (indent + 1)%Z) /\
  (exists p, plain p /\ let '(s1, e1, _, ok1) := fragmentation swap01 ok_mf None p init [] 0%Z in let '(s2, e2, _, ok2) := fragmentation swap01 ok_mf None Skip s1 e1 0%Z in
     ok1 = true /\ ok2 = true /\ map fid e1 = [0] /\ map fid e2 = [0; 0]).
Proof.
  split; [intros; cbn; auto|]. exists (Add 0 None noth). split; simpl; auto.
Qed.

(** Finding: for a fragment with wave function factor zero, the secondary fragments are counted minus once. *)
Theorem C40_zero_refuted : exists p s', plain p /\ run swap01 ok_mf p init = (s', true) /\
  map (fun f => weight (wf_factor f)) (frags s') = [0; 0; -1]%Z.
Proof. exists (Sec None 1%Q 1 (Add 0 (Some 0%Z) noth)). eexists. split; [simpl; auto|]. split; vm_compute; reflexivity. Qed.

(** Example: a rotation of order three around secondary fragments: nine fragments. *)
Definition rot3 (tag k x : nat) : nat := Nat.iter k (fun y => match y with 0 => 1 | 1 => 2 | 2 => 0 | y => y end) x.
Example nested_example : let '(s, ok) := run rot3 ok_mf (Sym 0 3 (Sec None (1#10) 1 (Add 0 None (TH (Some (1#100)%Q) None None)))) init in
  ok = true /\ map (fun f => (fid f, site f, parent f, weight (wf_factor f), envelop s (fid f))) (frags s) =
  [(0, 0, None, 1%Z, false); (1, 0, None, 1%Z, true); (2, 0, None, (-1)%Z, false);
   (3, 1, Some 0, 1%Z, false); (6, 2, Some 0, 1%Z, false); (4, 1, Some 1, 1%Z, true); (7, 2, Some 1, 1%Z, true); (5, 1, Some 2, (-1)%Z, false); (8, 2, Some 2, (-1)%Z, false)].
Proof. vm_compute. auto. Qed.

Print Assumptions C39_contexts. Print Assumptions C39_orbit. Print Assumptions C39_copies_distinct. Print Assumptions C39_exit.
Print Assumptions C40_total. Print Assumptions C40_envelop. Print Assumptions C40_symmetric.
Print Assumptions C39_overlap_refuted. Print Assumptions C39_exception_refuted. Print Assumptions C39_exit_refuted. Print Assumptions C40_zero_refuted.
