(** Property C09: pack_arrays / unpack_arrays. *)
From Coq Require Import List Arith NArith Lia Bool.
From Verif Require Import M_Pack.
Import ListNotations.

(** ** Specification *)

(** The number of indices of a shape. *)
Fixpoint count (shape : list N) : N := match shape with [] => 1%N | d :: r => (d * count r)%N end.

(** A consistent numpy array: its buffer holds exactly one item per index. *)
Definition consistent (a : array) : Prop :=
  N.of_nat (length (a_data a)) = (N.of_nat (itemsize (a_dtype a)) * count (a_shape a))%N.

Definition all_arrays (P : array -> Prop) (l : list (option array)) : Prop := forall a, In (Some a) l -> P a.

(** ** Lemmas *)

Lemma prod_count l : prod l = count l.
Proof. induction l as [|d l IH]; [reflexivity|]. cbn [count]. now rewrite <- IH. Qed.

Lemma Ok_inj {A} (a b : A) : Ok a = Ok b -> a = b.
Proof. congruence. Qed.

Lemma dec_enc n : dec (enc n) = n.
Proof.
  unfold dec, enc. cbn [fst snd]. rewrite N.add_comm. symmetry. apply N.div_mod'.
Qed.

Lemma map_dec_enc l : map dec (map enc l) = l.
Proof. rewrite map_map. rewrite <- (map_id l) at 2. apply map_ext. intros. apply dec_enc. Qed.

Lemma view_words_ok l w : view_words l = Ok w -> l = view_halves w /\ length l = 2 * length w.
Proof.
  assert (H : forall n l w, length l <= n -> view_words l = Ok w -> l = view_halves w /\ length l = 2 * length w).
  { induction n as [|n IH]; intros l0 w0 Hl E.
    - destruct l0; [|simpl in Hl; lia]. injection E as <-. auto.
    - destruct l0 as [|a [|b l0]]; cbn in E; [injection E as <-; auto|discriminate|].
      destruct (view_words l0) as [w1|] eqn:E1; [|discriminate]. injection E as <-.
      destruct (IH l0 w1) as [-> E2]; auto.
      { simpl in Hl. lia. }
      split; auto. cbn [length] in *. cbn [view_halves length]. lia. }
  eapply H. constructor.
Qed.

Lemma view_words_even l n : length l = 2 * n -> exists w, view_words l = Ok w.
Proof.
  revert l. induction n as [|n IH]; intros l H.
  - destruct l; [|discriminate]. exists []. auto.
  - destruct l as [|a [|b l]]; [discriminate|simpl in H; lia|]. simpl in H.
    destruct (IH l) as [w E]; [lia|]. exists ((a, b) :: w). cbn. rewrite E. auto.
Qed.

Lemma get_dtype_round dt : get_dtype (get_dtype_int dt) = Some (Some dt).
Proof. destruct dt; reflexivity. Qed.

Lemma firstn_app_exact {A} (l1 l2 : list A) n : length l1 = n -> firstn n (l1 ++ l2) = l1.
Proof. intros <-. rewrite firstn_app, Nat.sub_diag, firstn_all, firstn_O, app_nil_r. auto. Qed.

Lemma skipn_app_exact {A} (l1 l2 : list A) n : length l1 = n -> skipn n (l1 ++ l2) = l2.
Proof. intros <-. rewrite skipn_app, Nat.sub_diag, skipn_all. auto. Qed.

Lemma view_halves_length w : length (view_halves w) = 2 * length w.
Proof. induction w as [|[a b] w IH]; cbn; auto. rewrite IH. lia. Qed.

Lemma metadata_length a m : pack_metadata a = Ok m -> length m = 10.
Proof.
  unfold pack_metadata. destruct a as [a|].
  - destruct (Nat.ltb 8 (length (a_shape a))) eqn:E; [discriminate|]. apply Nat.ltb_ge in E.
    remember (8 - length (a_shape a)) as k eqn:Hk. intros H. injection H as <-. cbn [map length].
    rewrite map_length, app_length, repeat_length. lia.
  - intros H. injection H as <-. reflexivity.
Qed.

(** What [unpack_one] sees of a packed array. *)
Lemma unpack_one_pack a w rest : pack a = Ok w -> (forall x, a = Some x -> consistent x) ->
  unpack_one 8 (w ++ rest) =
  match a with
  | None => Ok (None, rest)
  | Some x => let size := N.to_nat (prod (a_shape x)) in
              match view_words (a_data x) with
              | Error => Error
              | Ok dw => let bytes := view_halves (firstn size (dw ++ rest)) in
                         if N.eqb (N.of_nat (length bytes)) (N.of_nat (itemsize (a_dtype x)) * prod (a_shape x))
                         then Ok (Some {| a_dtype := a_dtype x; a_shape := a_shape x; a_data := bytes |}, skipn size (dw ++ rest))
                         else Error
              end
  end.
Proof.
  intros E Hc. unfold pack in E. destruct (pack_metadata a) as [m|] eqn:Em; [|discriminate].
  pose proof (metadata_length _ _ Em) as Hlen.
  unfold unpack_one.
  assert (Hm : forall tail, map dec (firstn (8 + 2) (firstn (8 + 2) (m ++ tail))) = map dec m /\ skipn (8 + 2) (m ++ tail) = tail).
  { intros tail. rewrite (firstn_app_exact m tail) by auto. rewrite firstn_all2 by lia. split; auto.
    apply skipn_app_exact. auto. }
  destruct a as [x|].
  - destruct (view_words (a_data x)) as [dw|] eqn:Ew; [|discriminate]. injection E as <-.
    rewrite <- app_assoc. destruct (Hm (dw ++ rest)) as [-> ->].
    unfold pack_metadata in Em. destruct (Nat.ltb 8 (length (a_shape x))) eqn:El; [discriminate|].
    apply Ok_inj in Em. subst m. rewrite map_dec_enc. rewrite get_dtype_round.
    rewrite Nnat.Nat2N.id, (firstn_app_exact (a_shape x)) by auto. reflexivity.
  - injection E as <-. destruct (Hm rest) as [-> ->]. injection Em as <-. reflexivity.
Qed.

Lemma unpack_one_round a w rest : pack a = Ok w -> (forall x, a = Some x -> consistent x /\ itemsize (a_dtype x) = 2) ->
  unpack_one 8 (w ++ rest) = Ok (a, rest).
Proof.
  intros E H. rewrite (unpack_one_pack a w rest E) by (intros x Hx; apply H; auto).
  destruct a as [x|]; auto. destruct (H x eq_refl) as [Hc Hi]. cbv zeta.
  unfold pack in E. destruct (pack_metadata (Some x)); [|discriminate].
  destruct (view_words (a_data x)) as [dw|] eqn:Ew; [|discriminate].
  apply view_words_ok in Ew. destruct Ew as [Ed El].
  unfold consistent in Hc. rewrite <- prod_count, Hi in Hc.
  assert (Hsz : length dw = N.to_nat (prod (a_shape x))) by lia.
  rewrite firstn_app_exact, skipn_app_exact by auto. rewrite <- Ed, Hi.
  replace (N.of_nat (length (a_data x)) =? N.of_nat 2 * prod (a_shape x))%N with true by (symmetry; apply N.eqb_eq; lia).
  destruct x; reflexivity.
Qed.

Lemma pack_length a w : pack a = Ok w -> 10 <= length w.
Proof.
  unfold pack. destruct (pack_metadata a) as [m|] eqn:E; [|discriminate]. apply metadata_length in E.
  destruct a as [x|].
  - destruct (view_words (a_data x)); [|discriminate]. intros H. injection H as <-. rewrite app_length. lia.
  - intros H. injection H as <-. lia.
Qed.

Lemma unpack_loop_round : forall l w fuel, pack_list l = Ok w -> length w <= fuel ->
  all_arrays (fun x => consistent x /\ itemsize (a_dtype x) = 2) l -> unpack_loop fuel 8 w = Ok l.
Proof.
  induction l as [|a l IH]; intros w fuel E Hf Hall; cbn [pack_list] in E.
  - injection E as <-. destruct fuel; auto.
  - destruct (pack a) as [w1|] eqn:E1; [|discriminate]. destruct (pack_list l) as [w2|] eqn:E2; [|discriminate].
    injection E as <-. pose proof (pack_length _ _ E1) as Hl.
    rewrite app_length in Hf. destruct fuel as [|fuel]; [lia|].
    cbn [unpack_loop]. destruct (w1 ++ w2) as [|z zs] eqn:Ez.
    { destruct w1; [simpl in Hl; lia|discriminate]. }
    rewrite <- Ez. rewrite (unpack_one_round a w1 w2 E1).
    + rewrite (IH w2 fuel); auto; [lia|]. intros x Hx. apply Hall. right. auto.
    + intros x ->. apply Hall. left. auto.
Qed.

(** ** C09 *)

(** Packing accepts exactly the non-empty lists in which every array has at most eight dimensions and a size of a multiple of eight bytes. *)
Theorem C09_accepts : forall l, all_arrays consistent l ->
  ((exists w, pack_arrays l = Ok w) <->
   l <> [] /\ all_arrays (fun a => length (a_shape a) <= 8 /\ exists n, length (a_data a) = 2 * n) l).
Proof.
  intros l _. assert (H : (exists w, pack_list l = Ok w) <->
    all_arrays (fun a => length (a_shape a) <= 8 /\ exists n, length (a_data a) = 2 * n) l).
  { induction l as [|a l IH].
    - split; [intros _ a []|]. exists []. auto.
    - assert (H1 : (exists w, pack a = Ok w) <-> (forall x, a = Some x -> length (a_shape x) <= 8 /\ exists n, length (a_data x) = 2 * n)).
      { unfold pack, pack_metadata. destruct a as [x|].
        - destruct (Nat.ltb 8 (length (a_shape x))) eqn:E.
          + apply Nat.ltb_lt in E. split; [intros [w Hw]; discriminate|]. intros H. destruct (H x eq_refl). lia.
          + apply Nat.ltb_ge in E. split.
            * intros [w Hw] y Hy. injection Hy as <-. split; auto.
              destruct (view_words (a_data x)) as [dw|] eqn:Ew; [|discriminate]. apply view_words_ok in Ew.
              exists (length dw). tauto.
            * intros H. destruct (H x eq_refl) as (_ & n & Hn). destruct (view_words_even _ _ Hn) as [dw ->]. eauto.
        - split; [intros _ x Hx; discriminate|]. eauto. }
      cbn [pack_list]. split.
      + intros [w Hw]. destruct (pack a) as [w1|] eqn:E1; [|discriminate]. destruct (pack_list l) as [w2|] eqn:E2; [|discriminate].
        intros x [Hx|Hx].
        * apply (proj1 H1); eauto.
        * apply (proj1 IH); eauto.
      + intros Hall. destruct (proj2 H1) as [w1 ->].
        { intros x ->. apply Hall. left. auto. }
        destruct (proj2 IH) as [w2 ->].
        { intros x Hx. apply Hall. right. auto. }
        eauto. }
  unfold pack_arrays. destruct l as [|a l].
  - split; [intros [w Hw]; discriminate|]. intros [Hn _]. congruence.
  - rewrite H. split; [intros Ha; split; [discriminate|auto]|tauto].
Qed.

(** Round trip for every list of Nones and arrays of eight-byte element types (any shape up to eight dimensions). *)
Theorem C09_round_trip : forall l,
  l <> [] ->
  all_arrays (fun a => consistent a /\ itemsize (a_dtype a) = 2 /\ length (a_shape a) <= 8) l ->
  exists w, pack_arrays l = Ok w /\ unpack_arrays 8 w = Ok l.
Proof.
  intros l Hne Hall.
  destruct (proj2 (C09_accepts l (fun a Ha => proj1 (Hall a Ha)))) as [w Hw].
  - split; auto. intros a Ha. destruct (Hall a Ha) as (Hc & Hi & Hd). split; auto.
    exists (N.to_nat (prod (a_shape a))). unfold consistent in Hc. rewrite <- prod_count, Hi in Hc. lia.
  - exists w. split; auto. unfold unpack_arrays. apply unpack_loop_round; auto.
    + unfold pack_arrays in Hw. destruct l; [congruence|auto].
    + intros a Ha. destruct (Hall a Ha) as (Hc & Hi & _). auto.
Qed.

(** More than eight dimensions are rejected. *)
Theorem C09_rejects : forall l a, In (Some a) l -> 8 < length (a_shape a) -> pack_arrays l = Error.
Proof.
  intros l a Hin Hd. assert (H : pack_list l = Error).
  { induction l as [|b l IH]; [destruct Hin|]. cbn [pack_list]. destruct Hin as [->|Hin].
    - unfold pack, pack_metadata. apply Nat.ltb_lt in Hd. rewrite Hd. auto.
    - rewrite (IH Hin). destruct (pack b); auto. }
  destruct l; auto.
Qed.

(** For non-empty arrays of sixteen-byte element types unpacking never returns the input (whatever surrounds the array). *)
Theorem C09_complex : forall l a w,
  all_arrays consistent l ->
  In (Some a) l -> a_dtype a = Complex128 -> count (a_shape a) <> 0%N ->
  pack_arrays l = Ok w -> unpack_arrays 8 w <> Ok l.
Proof.
  intros l a w Hall Hin Hdt Hne Hw. rewrite <- prod_count in Hne. unfold unpack_arrays.
  assert (Hw' : pack_list l = Ok w) by (unfold pack_arrays in Hw; destruct l; [discriminate|auto]).
  clear Hw. generalize (length w) as fuel. intros fuel. revert l w Hall Hin Hw'.
  (* a successful unpacking returns arrays with consistent halves of the words *)
  induction fuel as [|fuel IH]; intros l w Hall Hin Hw H.
  - destruct w; [|discriminate]. destruct l as [|b l]; [destruct Hin|discriminate H].
  - destruct l as [|b l]; [destruct Hin|]. cbn [pack_list] in Hw.
    destruct (pack b) as [w1|] eqn:E1; [|discriminate]. destruct (pack_list l) as [w2|] eqn:E2; [|discriminate].
    injection Hw as <-. pose proof (pack_length _ _ E1) as Hl.
    cbn [unpack_loop] in H. destruct (w1 ++ w2) as [|z zs] eqn:Ez; [discriminate|]. rewrite <- Ez in H.
    rewrite (unpack_one_pack b w1 w2 E1) in H by (intros x ->; apply Hall; left; auto).
    destruct b as [x|].
    + destruct (view_words (a_data x)) as [dw|] eqn:Ew; [|discriminate]. cbv zeta in H.
      destruct (N.eqb _ _) eqn:Eq; [|discriminate]. apply N.eqb_eq in Eq.
      destruct (unpack_loop fuel 8 _) as [l'|] eqn:El; [|discriminate]. injection H as Hx Hl'. subst l'.
      apply view_words_ok in Ew. destruct Ew as [Ed Edl].
      assert (Hcx : consistent x) by (apply Hall; left; auto). unfold consistent in Hcx. rewrite <- prod_count in Hcx.
      assert (Hlen : length (a_data x) = length (view_halves (firstn (N.to_nat (prod (a_shape x))) (dw ++ w2)))) by (rewrite <- Hx; reflexivity).
      rewrite view_halves_length in Hlen. rewrite firstn_length in Hlen.
      assert (Hsmall : itemsize (a_dtype x) <= 2 \/ prod (a_shape x) = 0%N) by nia.
      assert (Hsk : skipn (N.to_nat (prod (a_shape x))) (dw ++ w2) = w2 \/ (itemsize (a_dtype x) = 1 /\ prod (a_shape x) <> 0%N)).
      { destruct (N.eq_dec (prod (a_shape x)) 0) as [Ez0|Ez0].
        - left. rewrite Ez0 in *. replace (length (a_data x)) with 0 in * by lia.
          destruct dw; [reflexivity|simpl in Edl; lia].
        - destruct (a_dtype x); cbn [itemsize] in *; auto.
          + left. apply skipn_app_exact. lia.
          + left. apply skipn_app_exact. lia.
          + lia. }
      destruct Hsk as [Hsk|[Hi Hz]].
      * rewrite Hsk in El. destruct Hin as [Hx0|Hin].
        -- injection Hx0 as ->. rewrite Hdt in Hsmall. cbn in Hsmall. lia.
        -- eapply (IH l w2); eauto. intros y Hy. apply Hall. right. auto.
      * (* float32: the sizes only agree at the very end of the buffer *)
        rewrite view_halves_length, firstn_length, app_length in Eq. rewrite Hi in Eq, Hcx.
        assert (Hw2 : length w2 = 0) by lia.
        destruct Hin as [Hx0|Hin]; [injection Hx0 as ->; rewrite Hdt in Hi; discriminate|].
        destruct l as [|c l]; [destruct Hin|]. cbn [pack_list] in E2.
        destruct (pack c) as [w3|] eqn:E3; [|discriminate]. destruct (pack_list l); [|discriminate].
        apply Ok_inj in E2. subst w2. apply pack_length in E3. rewrite app_length in Hw2. lia.
    + destruct (unpack_loop fuel 8 w2) as [l'|] eqn:El; [|discriminate]. injection H as ->.
      destruct Hin as [Hx0|Hin]; [discriminate|]. eapply (IH l w2); eauto. intros y Hy. apply Hall. right. auto.
Qed.

(** Non-trivial case: a 2x1 integer array, None, a zero-dimensional float, an empty array. *)
Definition ex_list : list (option array) :=
  [Some {| a_dtype := Int64; a_shape := [2;1]; a_data := [5;6;7;8] |}; None;
   Some {| a_dtype := Float64; a_shape := []; a_data := [1;2] |};
   Some {| a_dtype := Complex128; a_shape := [3;0]; a_data := [] |}]%N.
Example C09_ex : match pack_arrays ex_list with Ok w => unpack_arrays 8 w | Error => Error end = Ok ex_list.
Proof. reflexivity. Qed.
Example C09_ex_hyp : all_arrays consistent ex_list.
Proof. intros a [H|[H|[H|[H|[]]]]]; try discriminate; injection H as <-; reflexivity. Qed.
Definition ex_complex : list (option array) := [Some {| a_dtype := Complex128; a_shape := [2]; a_data := [1;2;3;4;5;6;7;8] |}]%N.
Example C09_complex_ex : exists w, pack_arrays ex_complex = Ok w /\ unpack_arrays 8 w = Error.
Proof. eexists. split; [reflexivity|reflexivity]. Qed.

(** Finding: the argument maxdim only reaches [unpack_arrays]: with any value other than eight on both sides the round trip breaks. *)
Theorem C09_maxdim_refuted :
  exists l w, pack_arrays l = Ok w /\ unpack_arrays 8 w = Ok l /\ unpack_arrays 4 w <> Ok l /\ unpack_arrays 9 w <> Ok l.
Proof.
  exists [Some {| a_dtype := Float64; a_shape := [2]; a_data := [1;2;3;4] |}]%N. eexists.
  split; [reflexivity|]. split; [reflexivity|]. split; vm_compute; discriminate.
Qed.

Print Assumptions C09_accepts.
Print Assumptions C09_round_trip.
Print Assumptions C09_rejects.
Print Assumptions C09_complex.
Print Assumptions C09_maxdim_refuted.
