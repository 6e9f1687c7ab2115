(** Property C07: decorated einsum subscripts. *)
From Coq Require Import Ascii String List Arith Bool Lia.
From Verif Require Import M_Einsum.
Import ListNotations.
Open Scope list_scope.

(** ** Specification *)

(** A subscript string consists of separators and indices; an index is a letter with a possibly empty decoration. *)
Inductive token :=
| Sep (c : char)
| Idx (l : char) (deco : list char).

Definition chars_of (t : token) : list char :=
  match t with Sep c => [c] | Idx l d => l :: d end.

(** The characters that are no decorations: the letters and the characters " ,->.()[]{}". *)
Definition codes (s : string) : list char := map nat_of_ascii (list_ascii_of_string s).
Definition kept (c : char) : Prop :=
  In c (codes "abcdefghijklmnopqrstuvwxyz") \/ In c (codes "ABCDEFGHIJKLMNOPQRSTUVWXYZ") \/ In c (codes " ,->.()[]{}").
Definition letter (c : char) : Prop := In c (codes "abcdefghijklmnopqrstuvwxyz") \/ In c (codes "ABCDEFGHIJKLMNOPQRSTUVWXYZ").

(** Well-formed tokens: separators are kept characters that are no letters, decorations are not kept characters. *)
Definition wf_token (t : token) : Prop :=
  match t with
  | Sep c => kept c /\ ~ letter c
  | Idx l d => letter l /\ Forall (fun c => ~ kept c) d
  end.

(** The string is the concatenation of the tokens. *)
Definition reads (s : list char) (ts : list token) : Prop := s = concat (map chars_of ts) /\ Forall wf_token ts.

(** Renaming of indices. *)
Definition rename (rho : char -> list char -> char) (t : token) : char :=
  match t with Sep c => c | Idx l d => rho l d end.

(** ** Lemmas *)

Lemma letter_spec c : letter c <-> is_letter c = true.
Proof.
  unfold letter, is_letter. rewrite orb_true_iff, !andb_true_iff, !Nat.leb_le.
  change (codes "abcdefghijklmnopqrstuvwxyz") with (seq 97 26). change (codes "ABCDEFGHIJKLMNOPQRSTUVWXYZ") with (seq 65 26). rewrite !in_seq. lia.
Qed.

Lemma kept_spec c : kept c <-> is_keep c = true.
Proof.
  unfold is_keep. rewrite orb_true_iff, <- letter_spec. unfold kept, letter. change (codes " ,->.()[]{}") with keep_symbols. rewrite existsb_exists. split.
  - intros [H|[H|H]]; auto. right. exists c. rewrite Nat.eqb_refl. auto.
  - intros [[H|H]|(x & H & E)]; auto. apply Nat.eqb_eq in E. subst. auto.
Qed.

Definition wf0 (t : token) : Prop :=
  match t with
  | Sep c => is_keep c = true /\ is_letter c = false
  | Idx l d => is_letter l = true /\ Forall (fun c => is_keep c = false) d
  end.

Lemma wf_wf0 t : wf_token t <-> wf0 t.
Proof.
  destruct t; simpl; rewrite letter_spec.
  - rewrite kept_spec. rewrite not_true_iff_false. tauto.
  - rewrite !Forall_forall. split; intros [H1 H2]; split; auto; intros x Hx; specialize (H2 x Hx); rewrite kept_spec, not_true_iff_false in *; auto.
Qed.

Lemma wfs_wf0 ts : Forall wf_token ts <-> Forall wf0 ts.
Proof. rewrite !Forall_forall. split; intros H x Hx; apply wf_wf0; auto. Qed.

Lemma is_letter_spec c : is_letter c = true <-> In c letters.
Proof.
  unfold is_letter, letters. rewrite in_app_iff, !in_seq, orb_true_iff, !andb_true_iff, !Nat.leb_le. lia.
Qed.

Lemma existsb_in c (s : list char) : existsb (Nat.eqb c) s = true <-> In c s.
Proof.
  rewrite existsb_exists. split.
  - intros (x & Hx & E). apply Nat.eqb_eq in E. subst. auto.
  - intros H. exists c. rewrite Nat.eqb_refl. auto.
Qed.

Lemma free_spec s c : In c (free_letters s) <-> is_letter c = true /\ ~ In c s.
Proof.
  unfold free_letters. rewrite filter_In, <- is_letter_spec, negb_true_iff.
  rewrite <- existsb_in. destruct (existsb (Nat.eqb c) s); split; intros [H1 H2]; split; auto; try discriminate.
  exfalso; auto.
Qed.

Lemma NoDup_app_intro {A} (l1 l2 : list A) :
  NoDup l1 -> NoDup l2 -> (forall x, In x l1 -> In x l2 -> False) -> NoDup (l1 ++ l2).
Proof.
  induction l1 as [|a l1 IH]; simpl; auto. intros H1 H2 H. inversion H1; subst. constructor.
  - rewrite in_app_iff. intros [?|?]; auto. apply (H a); auto.
  - apply IH; auto. intros x Hx Hy. apply (H x); auto.
Qed.

Lemma NoDup_letters : NoDup letters.
Proof.
  unfold letters. apply NoDup_app_intro; try apply seq_NoDup. intros x H1 H2. apply in_seq in H1, H2. lia.
Qed.

Lemma NoDup_free s : NoDup (free_letters s).
Proof. apply NoDup_filter, NoDup_letters. Qed.

Lemma pop_spec l l' v : pop l = Some (l', v) -> l = l' ++ [v].
Proof.
  unfold pop. destruct (rev l) as [|x r] eqn:E; [discriminate|]. intros H. injection H as <- <-.
  rewrite <- (rev_involutive l), E. reflexivity.
Qed.

Lemma pop_none l : pop l = None -> l = [].
Proof.
  unfold pop. destruct (rev l) eqn:E; [|discriminate]. intros _.
  rewrite <- (rev_involutive l), E. reflexivity.
Qed.

Lemma lookup_in k d v : lookup k d = Some v -> In (k, v) d.
Proof.
  induction d as [|[k' v'] d IH]; simpl; [discriminate|].
  destruct ((fst k =? fst k') && (snd k =? snd k')) eqn:E.
  - apply andb_true_iff in E. destruct E as [E1 E2]. apply Nat.eqb_eq in E1, E2.
    intros H. injection H as ->. left. destruct k, k'; simpl in *; subst; auto.
  - auto.
Qed.

Opaque free_letters.

(** Decoding of a decorated index with the final dictionary. *)
Fixpoint decode (d : dict) (l : char) (deco : list char) : option char :=
  match deco with
  | [] => Some l
  | c :: deco' => match lookup (l, c) d with Some v => decode d v deco' | None => None end
  end.

Definition extends (d d' : dict) : Prop := forall k v, lookup k d = Some v -> lookup k d' = Some v.

Lemma decode_extends d d' : extends d d' -> forall deco l v, decode d l deco = Some v -> decode d' l deco = Some v.
Proof.
  intros H. induction deco as [|c deco IH]; intros l v; simpl; auto.
  destruct (lookup (l, c) d) as [w|] eqn:E; [|discriminate]. rewrite (H _ _ E). auto.
Qed.

Lemma decode_snoc d deco : forall l c, decode d l (deco ++ [c]) =
  match decode d l deco with Some v => lookup (v, c) d | None => None end.
Proof.
  induction deco as [|a deco IH]; intros l c; simpl.
  - destruct (lookup (l, c) d); auto.
  - destruct (lookup (l, a) d); auto.
Qed.

(** Loop invariant for the dictionary relative to the input string [s]. *)
Definition good (s : list char) (free : list char) (d : dict) : Prop :=
  NoDup (map snd d ++ free) /\ (forall c, In c (map snd d ++ free) -> is_letter c = true /\ ~ In c s).

Lemma extends_cons d k v : lookup k d = None -> extends d ((k, v) :: d).
Proof.
  intros H k' v' L. simpl. destruct ((fst k' =? fst k) && (snd k' =? snd k)) eqn:E; auto.
  apply andb_true_iff in E. destruct E as [E1 E2]. apply Nat.eqb_eq in E1, E2.
  destruct k, k'; simpl in *; subst. congruence.
Qed.

Lemma good_pop s free d k free' v : good s free d -> pop free = Some (free', v) -> good s free' ((k, v) :: d).
Proof.
  intros [H1 H2] E. apply pop_spec in E. subst free. unfold good. simpl.
  assert (P : forall c, In c (v :: map snd d ++ free') <-> In c (map snd d ++ free' ++ [v])).
  { intros c. simpl. rewrite !in_app_iff. simpl. tauto. }
  split.
  - rewrite app_assoc in H1. apply NoDup_remove in H1. rewrite app_nil_r in H1. destruct H1. constructor; auto.
  - intros c Hc. apply H2. apply P. exact Hc.
Qed.

Definition outputs (d : dict) (ts : list token) (os : list char) : Prop :=
  Forall2 (fun t o => match t with Sep c => o = c | Idx l deco => decode d l deco = Some o end) ts os.

Lemma outputs_extends d d' ts os : extends d d' -> outputs d ts os -> outputs d' ts os.
Proof.
  intros H. induction 1 as [|t o ts os Ht Hts IH]; constructor; auto.
  destruct t; auto. eapply decode_extends; eauto.
Qed.

Lemma outputs_app d ts os t o : outputs d ts os ->
  (match t with Sep c => o = c | Idx l deco => decode d l deco = Some o end) -> outputs d (ts ++ [t]) (os ++ [o]).
Proof. intros H1 H2. apply Forall2_app; auto. Qed.

Lemma loop_ok s : forall todo free d out done res,
  good s free d -> Forall wf0 done -> outputs d done (rev out) ->
  incl (concat (map chars_of done)) s -> incl todo s ->
  loop todo free d out = Ok res ->
  exists ts d' free', good s free' d' /\ extends d d' /\ Forall wf0 ts /\
    concat (map chars_of ts) = concat (map chars_of done) ++ todo /\ outputs d' ts res.
Proof.
  induction todo as [|c todo IH]; intros free d out done res Hg Hwf Hout Hincl Hincl2 H; simpl in H.
  - injection H as <-. exists done, d, free. rewrite app_nil_r. split; auto. split; [intros k v; auto|]. auto.
  - assert (Htodo : incl todo s) by (intros x Hx; apply Hincl2; right; auto).
    assert (Hc : In c s) by (apply Hincl2; left; auto).
    destruct (is_keep c) eqn:K.
    + assert (Ht : exists t, wf0 t /\ chars_of t = [c] /\
                     (match t with Sep x => c = x | Idx l deco => decode d l deco = Some c end)).
      { destruct (is_letter c) eqn:L.
        - exists (Idx c []). simpl. auto.
        - exists (Sep c). simpl. auto. }
      destruct Ht as (t & Hwt & Hct & Hot).
      destruct (IH free d (c :: out) (done ++ [t]) res) as (ts & d' & free' & H1 & H2 & H3 & H4 & H5); auto.
      * apply Forall_app. auto.
      * simpl. apply outputs_app; auto.
      * rewrite map_app, concat_app. simpl. rewrite Hct. simpl.
        intros x Hx. apply in_app_iff in Hx. destruct Hx as [Hx|[<-|[]]]; auto.
      * exists ts, d', free'. split; auto. split; auto. split; auto. split; auto.
        rewrite H4, map_app, concat_app. simpl. rewrite Hct, app_nil_r, <- app_assoc. reflexivity.
    + destruct out as [|last out']; [discriminate|].
      destruct (is_letter last) eqn:L; [|discriminate].
      simpl in Hout.
      (* the last token is an index whose output is [last] *)
      assert (Hsplit : exists done' l deco, done = done' ++ [Idx l deco] /\ outputs d done' (rev out') /\
                         decode d l deco = Some last).
      { apply Forall2_app_inv_r in Hout. destruct Hout as (l1 & l2 & Ha & Hb & ->).
        inversion Hb as [|t ? ? ? Ht Hrest]; subst. inversion Hrest; subst.
        destruct t as [x|l deco].
        - subst x. apply Forall_app in Hwf. destruct Hwf as [_ Hwf]. inversion Hwf; subst. simpl in *.
          destruct H2. congruence.
        - exists l1, l, deco. auto. }
      destruct Hsplit as (done' & l & deco & -> & Hout' & Hdec).
      apply Forall_app in Hwf. destruct Hwf as [Hwf1 Hwf2]. inversion Hwf2 as [|? ? Hw _]; subst. simpl in Hw.
      assert (Hcommon : forall d2 v free2, good s free2 d2 -> extends d d2 -> lookup (last, c) d2 = Some v ->
                 loop todo free2 d2 (v :: out') = Ok res ->
                 exists ts d' free', good s free' d' /\ extends d d' /\ Forall wf0 ts /\
                   concat (map chars_of ts) = concat (map chars_of (done' ++ [Idx l deco])) ++ c :: todo /\ outputs d' ts res).
      { intros d2 v free2 Hg2 Hext Hl Hloop.
        destruct (IH free2 d2 (v :: out') (done' ++ [Idx l (deco ++ [c])]) res) as (ts & d' & free' & H1 & H2 & H3 & H4 & H5); auto.
        - apply Forall_app. split; auto. constructor; auto. simpl. split; [tauto|].
          apply Forall_app. split; [tauto|]. constructor; auto.
        - simpl. apply outputs_app; [eapply outputs_extends; eauto|].
          rewrite decode_snoc, (decode_extends _ _ Hext _ _ _ Hdec). auto.
        - rewrite map_app, concat_app. rewrite map_app, concat_app in Hincl. simpl in *. rewrite app_nil_r in *.
          intros x Hx. apply in_app_iff in Hx. destruct Hx as [Hx|[<-|Hx]].
          + apply Hincl, in_app_iff. auto.
          + apply Hincl, in_app_iff. right. left. auto.
          + apply in_app_iff in Hx. destruct Hx as [Hx|[<-|[]]]; auto.
            apply Hincl, in_app_iff. right. right. auto.
        - exists ts, d', free'. split; auto. split; [intros k w Hk; auto|]. split; auto. split; auto.
          rewrite H4, !map_app, !concat_app. simpl. rewrite !app_nil_r, <- !app_assoc. simpl.
          rewrite <- !app_assoc. reflexivity. }
      destruct (lookup (last, c) d) as [v|] eqn:Lk.
      * eapply (Hcommon d v free); eauto. intros k w Hk; auto.
      * destruct (pop free) as [[free1 v]|] eqn:Pp; [|discriminate].
        eapply (Hcommon (((last, c), v) :: d) v free1); eauto.
        -- eapply good_pop; eauto.
        -- apply extends_cons. auto.
        -- simpl. rewrite !Nat.eqb_refl. auto.
Qed.

(** Values of the dictionary determine their keys. *)
Lemma good_inj s free d k1 k2 v : good s free d -> In (k1, v) d -> In (k2, v) d -> k1 = k2.
Proof.
  intros [Hn _]. assert (Hn' : NoDup (map snd d)).
  { revert Hn. generalize (map snd d) as l. clear. induction l; simpl; intros H; [constructor|].
    inversion H; subst. constructor; auto. intros Hin. apply H2, in_app_iff. auto. }
  clear Hn. induction d as [|[k w] d IH]; simpl; [tauto|].
  inversion Hn'; subst. intros [E1|H1'] [E2|H2'].
  - congruence.
  - injection E1 as -> ->. exfalso. apply H1, in_map_iff. exists (k2, v). auto.
  - injection E2 as -> ->. exfalso. apply H1, in_map_iff. exists (k1, v). auto.
  - auto.
Qed.

Lemma good_value s free d k v : good s free d -> lookup k d = Some v -> is_letter v = true /\ ~ In v s.
Proof.
  intros [_ H] L. apply lookup_in in L. apply H, in_app_iff. left. apply in_map_iff. exists (k, v). auto.
Qed.

Lemma decode_fresh s free d deco l v : good s free d -> deco <> [] -> decode d l deco = Some v ->
  is_letter v = true /\ ~ In v s.
Proof.
  intros Hg Hne H. destruct (exists_last Hne) as (deco' & c & ->). rewrite decode_snoc in H.
  destruct (decode d l deco'); [|discriminate]. eapply good_value; eauto.
Qed.

Lemma decode_inj s free d : good s free d -> forall deco l deco' l' v,
  In l s -> In l' s -> decode d l deco = Some v -> decode d l' deco' = Some v -> l = l' /\ deco = deco'.
Proof.
  intros Hg deco. induction deco as [|c deco IH] using rev_ind; intros l deco' l' v Hl Hl' H1 H2.
  - simpl in H1. injection H1 as <-. destruct deco' as [|c' deco'].
    + simpl in H2. injection H2 as ->. auto.
    + exfalso. eapply decode_fresh in H2; eauto; [|discriminate]. tauto.
  - destruct (exists_last (l := deco')) as (deco2 & c' & ->).
    { intros ->. simpl in H2. injection H2 as ->.
      eapply decode_fresh in H1; eauto; [tauto|]. destruct deco; discriminate. }
    rewrite decode_snoc in H1, H2.
    destruct (decode d l deco) as [w|] eqn:D1; [|discriminate].
    destruct (decode d l' deco2) as [w'|] eqn:D2; [|discriminate].
    apply lookup_in in H1, H2. pose proof (good_inj _ _ _ _ _ _ Hg H1 H2) as E. injection E as -> ->.
    destruct (IH _ _ _ _ Hl Hl' D1 D2) as [-> ->]. auto.
Qed.

(** ** C07 *)

(** Whenever the replacement succeeds, the string reads as tokens, the output has one character per token, given by a renaming of
    indices which leaves undecorated letters alone, gives every decorated index a letter not occurring in the string, and
    is injective on the indices of the string. *)
Theorem C07_renaming : forall s res,
  replace_decorated_subscripts s = Ok res ->
  exists ts rho, reads s ts /\ res = map (rename rho) ts /\
    (forall l, In (Idx l []) ts -> rho l [] = l) /\
    (forall l d, In (Idx l d) ts -> d <> [] -> is_letter (rho l d) = true /\ ~ In (rho l d) s) /\
    (forall l d l' d', In (Idx l d) ts -> In (Idx l' d') ts -> rho l d = rho l' d' -> l = l' /\ d = d').
Proof.
  intros s res H. unfold replace_decorated_subscripts in H.
  assert (Hg : good s (free_letters s) []).
  { split; [apply NoDup_free|]. intros c Hc. cbn [map app] in Hc. apply free_spec in Hc. exact Hc. }
  destruct (loop_ok s s (free_letters s) [] [] [] res Hg) as (ts & d & free' & Hg' & _ & Hwf & Hc & Ho); auto.
  - constructor.
  - intros x [].
  - intros x; auto.
  - simpl in Hc. exists ts, (fun l deco => match decode d l deco with Some v => v | None => l end).
    split; [split; [auto|now apply wfs_wf0]|].
    assert (Hin : forall l deco, In (Idx l deco) ts -> In l s /\ exists v, decode d l deco = Some v).
    { intros l deco Hi. split.
      - rewrite <- Hc. apply in_concat. exists (l :: deco). split; [|left; auto].
        apply in_map_iff. exists (Idx l deco). auto.
      - clear - Ho Hi. induction Ho as [|t o ts os Ht Hts IH]; [destruct Hi|].
        destruct Hi as [->|Hi]; eauto. }
    split; [|split; [|split]].
    + clear - Ho. induction Ho as [|t o ts os Ht Hts IH]; simpl; auto. f_equal; auto.
      destruct t; simpl; auto. rewrite Ht. auto.
    + intros l Hi. reflexivity.
    + intros l deco Hi Hne. destruct (Hin _ _ Hi) as (_ & v & E). rewrite E. eapply decode_fresh; eauto.
    + intros l deco l' deco' Hi Hi' E. destruct (Hin _ _ Hi) as (Hl & v & E1). destruct (Hin _ _ Hi') as (Hl' & v' & E2).
      rewrite E1, E2 in E. subst v'. eapply decode_inj; eauto.
Qed.

(** The replacement fails with ValueError only if some decoration has no letter before it, i.e. the string does not read as tokens. *)
Lemma loop_ValueError : forall todo free d out ts,
  Forall wf0 ts -> (out = [] -> todo = concat (map chars_of ts)) ->
  forall cur, (match cur with
               | None => todo = concat (map chars_of ts)
               | Some deco => todo = deco ++ concat (map chars_of ts) /\ Forall (fun c => is_keep c = false) deco /\
                              exists last out', out = last :: out' /\ is_letter last = true
               end) ->
  (forall k v, lookup k d = Some v -> is_letter v = true) -> (forall c, In c free -> is_letter c = true) ->
  loop todo free d out <> ValueError.
Proof.
  induction todo as [|c todo IH]; intros free d out ts Hwf Ho cur Hcur Hd Hfree; [discriminate|].
  cbn [loop].
  assert (Hcase : (exists deco, Forall (fun c => is_keep c = false) deco /\ todo = deco ++ concat (map chars_of ts) /\
                     is_keep c = false /\ exists last out', out = last :: out' /\ is_letter last = true)
                  \/ (exists t ts', ts = t :: ts' /\ chars_of t = c :: (match t with Sep _ => [] | Idx _ dd => dd end) /\
                        is_keep c = true /\ todo = (match t with Sep _ => [] | Idx _ dd => dd end) ++ concat (map chars_of ts'))).
  { assert (Hnew : c :: todo = concat (map chars_of ts) -> exists t ts', ts = t :: ts' /\ chars_of t = c :: (match t with Sep _ => [] | Idx _ dd => dd end) /\
                        is_keep c = true /\ todo = (match t with Sep _ => [] | Idx _ dd => dd end) ++ concat (map chars_of ts')).
    { intros E. destruct ts as [|t ts']; [discriminate|]. exists t, ts'. split; auto.
      inversion Hwf; subst. destruct t as [x|l dd]; simpl in *; injection E as -> ->.
      - repeat split; tauto.
      - repeat split; auto. unfold is_keep. rewrite (proj1 H1). auto. }
    destruct cur as [deco|].
    - destruct Hcur as (E & Hf & Hl). destruct deco as [|x deco]; [right; auto|].
      injection E as -> E. left. inversion Hf; subst. exists deco. auto.
    - right. auto. }
  destruct Hcase as [(deco & Hf & E & K & last & out' & -> & L)|(t & ts' & -> & Hch & K & E)]; rewrite K.
  - rewrite L. destruct (lookup (last, c) d) as [v|] eqn:Lk.
    + apply (IH free d (v :: out') ts Hwf ltac:(discriminate) (Some deco)); auto.
      split; auto. split; auto. exists v, out'. split; auto. eapply Hd; eauto.
    + destruct (pop free) as [[free' v]|] eqn:P; [|discriminate]. apply pop_spec in P. subst free.
      assert (Lv : is_letter v = true) by (apply Hfree, in_app_iff; right; left; auto).
      apply (IH free' (((last, c), v) :: d) (v :: out') ts Hwf ltac:(discriminate) (Some deco)); auto.
      * split; auto. split; auto. exists v, out'. auto.
      * intros k w H. simpl in H. destruct ((fst k =? last) && (snd k =? c)); [injection H as <-; auto|eapply Hd; eauto].
      * intros x Hx. apply Hfree, in_app_iff. auto.
  - inversion Hwf; subst.
    destruct t as [x|l dd]; simpl in Hch.
    + injection Hch as ->. apply (IH free d (c :: out) ts' H2 ltac:(discriminate) None); auto.
    + injection Hch as ->. apply (IH free d (c :: out) ts' H2 ltac:(discriminate) (Some dd)); auto.
      simpl in H1. split; auto. split; [tauto|]. exists c, out. split; auto. tauto.
Qed.

Theorem C07_ValueError : forall s,
  replace_decorated_subscripts s = ValueError -> ~ exists ts, reads s ts.
Proof.
  intros s H (ts & -> & Hwf). apply wfs_wf0 in Hwf. unfold replace_decorated_subscripts in H. revert H.
  apply (loop_ValueError _ _ _ _ ts Hwf (fun _ => eq_refl) None eq_refl).
  - intros k v E. discriminate.
  - intros c Hc. apply free_spec in Hc. tauto.
Qed.

(** ... and it does not run out of letters as long as there are as many free letters as decoration characters. *)
Definition n_deco (s : list char) : nat := length (filter (fun c => negb (is_keep c)) s).

Lemma loop_IndexError : forall todo free d out,
  n_deco todo <= length free -> loop todo free d out <> IndexError.
Proof.
  unfold n_deco. induction todo as [|c todo IH]; intros free d out Hn; [discriminate|]. cbn [loop].
  simpl in Hn. destruct (is_keep c) eqn:K; simpl in Hn; [apply IH; auto|].
  destruct out as [|last out']; [discriminate|]. destruct (is_letter last); [|discriminate].
  destruct (lookup (last, c) d); [apply IH; lia|].
  destruct (pop free) as [[free' v]|] eqn:P.
  - apply pop_spec in P. subst. rewrite app_length in Hn. simpl in Hn. apply IH. lia.
  - apply pop_none in P. subst. simpl in Hn. lia.
Qed.

Lemma n_deco_app a b : n_deco (a ++ b) = n_deco a + n_deco b.
Proof. unfold n_deco. rewrite filter_app, app_length. auto. Qed.

(** The number of decoration characters. *)
Definition decorations (ts : list token) : nat := list_sum (map (fun t => match t with Sep _ => 0 | Idx _ d => length d end) ts).

Lemma n_deco_tokens ts : Forall wf0 ts -> n_deco (concat (map chars_of ts)) = decorations ts.
Proof.
  unfold decorations. induction 1 as [|t ts H _ IH]; auto. cbn [map concat list_sum fold_right]. rewrite n_deco_app, IH. change (fold_right Nat.add 0) with list_sum. f_equal.
  unfold n_deco. destruct t as [c|l d]; simpl in H; destruct H as [H1 H2].
  - simpl. now rewrite H1.
  - cbn [chars_of filter]. assert (is_keep l = true) as -> by (unfold is_keep; now rewrite H1). cbn [negb].
    induction H2 as [|c d Hc _ IHd]; auto. cbn [filter length]. rewrite Hc. cbn [negb length]. now rewrite IHd.
Qed.

(** The letters that are used. *)
Definition used (s : list char) : list char := nodup Nat.eq_dec (filter is_letter s).

Lemma filter_split (A : Type) (f : A -> bool) l : length (filter f l) + length (filter (fun x => negb (f x)) l) = length l.
Proof. induction l as [|x l IH]; auto. simpl. destruct (f x); simpl; lia. Qed.

Transparent free_letters.
Lemma free_used s : length (free_letters s) + length (used s) = 52.
Proof.
  assert (E : length (used s) = length (filter (fun c => existsb (Nat.eqb c) s) letters)).
  { apply Nat.le_antisymm; apply NoDup_incl_length.
    - apply NoDup_nodup.
    - intros c Hc. apply nodup_In in Hc. apply filter_In in Hc. apply filter_In. destruct Hc as [H1 H2]. split; [now apply is_letter_spec|now apply existsb_in].
    - apply NoDup_filter. unfold letters. repeat (constructor; [simpl; lia|]). constructor.
    - intros c Hc. apply filter_In in Hc. destruct Hc as [H1 H2]. apply nodup_In, filter_In. split; [now apply existsb_in|now apply is_letter_spec]. }
  rewrite E. unfold free_letters. rewrite Nat.add_comm. apply filter_split.
Qed.

Theorem C07_succeeds : forall s ts,
  reads s ts -> decorations ts + length (used s) <= 52 -> exists res, replace_decorated_subscripts s = Ok res.
Proof.
  intros s ts Hr Hn. destruct (replace_decorated_subscripts s) as [res| |] eqn:E; [eauto| |].
  - exfalso. eapply C07_ValueError; eauto.
  - exfalso. eapply loop_IndexError; eauto. destruct Hr as [-> Hw]. rewrite n_deco_tokens by now apply wfs_wf0. pose proof (free_used (concat (map chars_of ts))). lia.
Qed.

(** "a!b,b$a!->b$" ; the two a! get one letter, b and b$ are different. *)
Example C07_ex :
  replace_decorated_subscripts [97;33;98;44;98;36;97;33;45;62;98;36]
  = Ok [122;98;44;121;122;45;62;121].
Proof. reflexivity. Qed.
(** "a12,a13": multi-character decorations. *)
Example C07_ex2 : replace_decorated_subscripts [97;49;50;44;97;49;51] = Ok [121;44;120].
Proof. reflexivity. Qed.
Example C07_ex3 : replace_decorated_subscripts [44;33] = ValueError.
Proof. reflexivity. Qed.
Example C07_ex_reads :
  reads [97;33;98;44;98;36] [Idx 97 [33]; Idx 98 []; Sep 44; Idx 98 [36]] /\
  decorations [Idx 97 [33]; Idx 98 []; Sep 44; Idx 98 [36]] + length (used [97;33;98;44;98;36]) <= 52.
Proof. split; [split; [reflexivity|apply wfs_wf0; repeat constructor]|vm_compute; lia]. Qed.
(** "{a}": brackets are no decorations. *)
Example C07_ex4 : replace_decorated_subscripts [123;97;125] = Ok [123;97;125] /\ kept 125 /\ kept 32 /\ ~ kept 33.
Proof. split; [reflexivity|]. split; [apply kept_spec; reflexivity|]. split; [apply kept_spec; reflexivity|]. rewrite kept_spec. vm_compute. discriminate. Qed.

Print Assumptions C07_renaming.
Print Assumptions C07_ValueError.
Print Assumptions C07_succeeds.
