(** * TreeFacts: what the operations of Tree.v compute on valid trees. *)
From Verif Require Import Base Bits Env EnvFacts Node NodeWf NodeAdd NodeRemove NodeBin NodeBin2 NodeUn Iter Tree.

Section TreeFacts.
Local Opaque maxTreeDepth fanout fb.
Context {E : Env} {T : Type} {K : Key T} {vok : T -> Prop} {KO : KeyOk K vok}.
Notation node := (node T).
Notation tree := (tree T).
Notation wf := (wf vok).
Notation allok := (allok vok).

Definition tel (t : tree) : list T := elemso (t_root t).

(** The invariant of trees. *)
Definition tok (t : tree) : Prop := wfo vok 0 (t_root t) /\ t_count t = Z.of_nat (length (tel t)).

Lemma tok_empty : tok emptyTree.
Proof. split; [apply wfo_None|reflexivity]. Qed.

Lemma tok_allok t : tok t -> allok (tel t).
Proof.
  intros [H _]. unfold tel. destruct (t_root t) as [n|]; simpl; [|intros e []].
  eapply wf_allok. apply H; auto.
Qed.

Lemma tok_distinct t : tok t -> distinct (tel t).
Proof.
  intros [H _]. unfold tel. destruct (t_root t) as [n|]; simpl; [|constructor].
  eapply wf_distinct. apply H; auto.
Qed.

Lemma tok_count t : tok t -> t_count t = Z.of_nat (length (tel t)).
Proof. intros [_ H]; auto. Qed.

Lemma tok_nil t : tok t -> t_root t = None <-> tel t = [].
Proof.
  intros [H _]. unfold tel. destruct (t_root t) as [n|]; simpl; [|tauto].
  split; [discriminate|]. intros Hn. exfalso. eapply wf_nonnil; [|exact Hn]. apply H; auto.
Qed.

Lemma tok_zero t : tok t -> t_count t = 0%Z <-> tel t = [].
Proof.
  intros H. rewrite (tok_count t H). destruct (tel t); simpl; split; intros; auto; try discriminate; lia.
Qed.

Lemma tok_lookup_In t e : tok t -> In e (tel t) -> lookup (tel t) e = Some e.
Proof. intros H He. apply (lookup_In (vok := vok)); auto using tok_distinct, tok_allok. Qed.

Lemma fuelAt_tree : fuelAt 0 <= treeFuel.
Proof. unfold fuelAt, treeFuel. lia. Qed.
Lemma fuelBin_tree : fuelBin 0 <= treeFuel.
Proof. unfold fuelBin, treeFuel. lia. Qed.
Lemma fuelGet_tree : maxTreeDepth - 0 < treeFuel.
Proof. unfold treeFuel. lia. Qed.

Lemma t_get_ok t v : tok t -> vok v -> t_get t v = Ok (lookup (tel t) v).
Proof.
  intros [H _] Hv. unfold t_get, tel. destruct (t_root t) as [n|]; auto.
  rewrite (get_wf (vok := vok) treeFuel 0); auto using fuelGet_tree.
Qed.

Lemma t_with_ok t v : tok t -> vok v ->
  exists r, t_with t v = Ok r /\ tok r /\
    (forall w, vok w -> lookup (tel r) w = if veq v w then Some v else lookup (tel t) w) /\
    t_count r = (t_count t + if isSome (lookup (tel t) v) then 0 else 1)%Z.
Proof.
  intros [H Hc] Hv. unfold t_with, tel in *. destruct (t_root t) as [n|].
  - destruct (withFast_wf (vok := vok) 0 treeFuel n v) as (r & m & E1 & Hwf & (H1 & H2 & H3)); auto using fuelAt_tree.
    rewrite E1. cbn [bind]. eexists; split; [reflexivity|]. split; [|split].
    + split; [apply wfo_Some; auto|]. unfold tel. simpl in *. lia.
    + intros w Hw. simpl in *. rewrite H1 by auto. unfold upd, rhs. destruct (veq v w); auto.
      destruct (lookup (elems n) v); auto.
    + simpl. unfold hit in H3. cbn [elemso]. destruct (isSome _); lia.
  - eexists; split; [reflexivity|]. split; [|split].
    + split; [|reflexivity]. apply wfo_Some. constructor; auto; lia.
    + intros w Hw. reflexivity.
    + simpl in *. lia.
Qed.

Lemma t_without_ok t v : tok t -> vok v ->
  exists r, t_without t v = Ok r /\ tok r /\
    (forall w, vok w -> lookup (tel r) w = if veq v w then None else lookup (tel t) w) /\
    t_count r = (t_count t - if isSome (lookup (tel t) v) then 1 else 0)%Z.
Proof.
  intros [H Hc] Hv. unfold t_without, tel in *. destruct (t_root t) as [n|] eqn:Er.
  - destruct (without_wf (vok := vok) treeFuel 0 n v) as (o & m & E1 & Hwf & (H1 & H2 & H3) & _); auto using fuelAt_tree.
    rewrite E1. cbn [bind]. eexists; split; [reflexivity|]. split; [|split].
    + split; auto. cbn [t_root t_count tel elemso] in *. unfold tel; simpl. lia.
    + intros w Hw. simpl in *. rewrite H1 by auto. reflexivity.
    + simpl. unfold hit in H3. cbn [elemso]. destruct (isSome _); lia.
  - eexists; split; [reflexivity|]. split; [|split].
    + split; [rewrite Er; apply wfo_None|]. unfold tel; rewrite Er; auto.
    + intros w Hw. rewrite Er. simpl. destruct (veq v w); reflexivity.
    + simpl in *. lia.
Qed.

(** The result of merging two trees, whenever [combine] does not panic. *)
Definition tclash (t u : tree) : Prop :=
  match t_root t, t_root u with Some n, Some n2 => clash n n2 | _, _ => False end.

Lemma t_combine_ok args t u :
  tok t -> tok u -> c_eq args = veq -> cfok (vok := vok) (c_f args) -> gaugeOk (c_gauge args) ->
  (tclash t u /\ t_combine args t u = Panic) \/
  (~ tclash t u /\ exists r, t_combine args t u = Ok r /\ tok r /\
    (forall w, vok w -> lookup (tel r) w = comb (c_f args) (tel t) (tel u) w)).
Proof.
  intros Ht Hu Heq Hf Hg. unfold t_combine, tclash, tel in *.
  pose proof Ht as [Hwt Hct]. pose proof Hu as [Hwu Hcu]. unfold tel in *.
  destruct (t_root t) as [n|] eqn:Et; [destruct (t_root u) as [n2|] eqn:Eu|].
  - destruct (combine_wf (vok := vok) treeFuel 0 args n n2) as [[HC E1]|(HC & r & m & E1 & Hwf & H1 & H2)]; auto using fuelBin_tree.
    + left. rewrite E1. auto.
    + right. split; auto. rewrite E1. cbn [bind]. eexists; split; [reflexivity|]. split; [|auto].
      split; [apply wfo_Some; auto|]. unfold tel. simpl in *. lia.
  - right. split; auto. eexists; split; [reflexivity|]. split; auto. rewrite Et. intros w Hw.
    unfold comb. simpl. destruct (lookup (elems n) w); auto.
  - right. split; auto. eexists; split; [reflexivity|]. split; auto.
Qed.

Lemma t_difference_ok g t u : tok t -> tok u -> gaugeOk g ->
  exists r, t_difference g t u = Ok r /\ tok r /\
    (forall w, vok w -> lookup (tel r) w =
       match lookup (tel u) w with Some _ => None | None => lookup (tel t) w end).
Proof.
  intros Ht Hu Hg. unfold t_difference, tel in *.
  pose proof Ht as [Hwt Hct]. pose proof Hu as [Hwu Hcu]. unfold tel in *.
  destruct (t_root t) as [n|] eqn:Et; [destruct (t_root u) as [n2|] eqn:Eu|].
  - destruct (difference_wf (vok := vok) treeFuel g 0 n n2) as (o & m & E1 & Hwf & H1 & H2); auto using fuelBin_tree.
    rewrite E1. cbn [bind]. eexists; split; [reflexivity|]. split; [|auto].
    split; auto. unfold tel. simpl in *. lia.
  - eexists; split; [reflexivity|]. split; auto. rewrite Et. auto.
  - eexists; split; [reflexivity|]. split; auto. rewrite Et. intros w Hw. simpl.
    destruct (lookup (elemso (t_root u)) w); auto.
Qed.

Lemma t_intersection_ok g t u : tok t -> tok u -> gaugeOk g ->
  exists r, t_intersection g t u = Ok r /\ tok r /\
    (forall w, vok w -> isect (lookup (tel t) w) (lookup (tel u) w) (lookup (tel r) w)).
Proof.
  intros Ht Hu Hg. unfold t_intersection, tel in *.
  pose proof Ht as [Hwt Hct]. pose proof Hu as [Hwu Hcu]. unfold tel in *.
  destruct (t_root t) as [n|] eqn:Et; [destruct (t_root u) as [n2|] eqn:Eu|].
  - destruct (t_count u <? t_count t)%Z.
    + destruct (intersection_wf (vok := vok) treeFuel g 0 n2 n) as (o & m & E1 & Hwf & H1 & H2); auto using fuelBin_tree.
      rewrite E1. cbn [bind]. eexists; split; [reflexivity|]. split; [split; auto|].
      intros w Hw. specialize (H1 w Hw). simpl. unfold isect in *.
      destruct (lookup (elems n) w), (lookup (elems n2) w); tauto.
    + destruct (intersection_wf (vok := vok) treeFuel g 0 n n2) as (o & m & E1 & Hwf & H1 & H2); auto using fuelBin_tree.
      rewrite E1. cbn [bind]. eexists; split; [reflexivity|]. split; [split; auto|]. auto.
  - eexists; split; [reflexivity|]. split; [apply tok_empty|]. intros w Hw. simpl. unfold isect.
    destruct (lookup (elems n) w); auto.
  - eexists; split; [reflexivity|]. split; [apply tok_empty|]. intros w Hw. simpl. unfold isect. auto.
Qed.

Lemma t_subsetOf_ok g t u : tok t -> tok u -> gaugeOk g ->
  exists b, t_subsetOf g t u = Ok b /\ (b = true <-> forall e, In e (tel t) -> lookup (tel u) e <> None).
Proof.
  intros Ht Hu Hg. unfold t_subsetOf, tel in *.
  pose proof Ht as [Hwt Hct]. pose proof Hu as [Hwu Hcu]. unfold tel in *.
  destruct (t_root t) as [n|] eqn:Et; [destruct (t_root u) as [n2|] eqn:Eu|].
  - apply (subsetOf_wf (vok := vok)); auto using fuelBin_tree.
  - exists false. split; auto. split; [discriminate|]. intros H. exfalso.
    assert (Hn : wf 0 n) by auto. apply wf_nonnil in Hn. simpl in H.
    destruct (elems n) as [|e es]; [congruence|]. apply (H e); simpl; auto.
  - exists true. split; auto. split; auto.
Qed.

Lemma t_equal_ok g eq t u : tok t -> tok u -> gaugeOk g ->
  (forall a b, vok a -> vok b -> eq a b = true -> veq a b = true) ->
  exists b, t_equal g eq t u = Ok b /\ (b = true <-> eqv eq (tel t) (tel u)).
Proof.
  intros Ht Hu Hg Heq. unfold t_equal, tel in *.
  pose proof (tok_distinct t Ht) as Hd1. pose proof (tok_distinct u Hu) as Hd2.
  pose proof (tok_allok t Ht) as Ho1. pose proof (tok_allok u Hu) as Ho2.
  pose proof Ht as [Hwt Hct]. pose proof Hu as [Hwu Hcu]. unfold tel in *.
  destruct (Z.eqb_spec (t_count t) (t_count u)) as [Hc|Hc]; cbn [negb].
  - destruct (Z.eqb_spec (t_count t) 0) as [Hz|Hz]; cbn [andb].
    + rewrite Hc in Hz. rewrite (proj2 (Z.eqb_eq _ _) Hz).
      exists true. split; auto. split; auto. intros _.
      assert (elemso (t_root t) = []) as -> by (apply length_zero_iff_nil; lia).
      assert (elemso (t_root u) = []) as -> by (apply length_zero_iff_nil; lia).
      split; intros e [].
    + destruct (t_root t) as [n|] eqn:Et.
      2:{ simpl in Hct. lia. }
      destruct (t_root u) as [n2|] eqn:Eu.
      2:{ simpl in Hcu. lia. }
      apply (equal_wf (vok := vok)); auto using fuelBin_tree.
  - exists false. split; auto. split; [discriminate|]. intros H.
    eapply (eqv_length (vok := vok)) in H; eauto. lia.
Qed.

Lemma t_range_ok t : tok t -> t_range t = Ok (tel t).
Proof.
  intros [H _]. unfold t_range, tel, t_iterator. destruct (t_root t) as [n|].
  - destruct (drain_spec (vok := vok) (S treeFuel) 0) with (fuel := S (length (elemso (Some n)))) (it := iterator n)
      as (it' & E1 & _).
    + unfold treeFuel; lia.
    + apply iok_iterator. auto.
    + rewrite remaining_iterator. simpl. lia.
    + rewrite E1. simpl. rewrite remaining_iterator. reflexivity.
  - reflexivity.
Qed.

Lemma t_where_ok g pred t : tok t -> gaugeOk g ->
  exists r, t_where g pred t = Ok r /\ tok r /\ tel r = filter pred (tel t).
Proof.
  intros Ht Hg. unfold t_where, tel in *. pose proof Ht as [Hwt Hct]. unfold tel in *.
  destruct (t_root t) as [n|] eqn:Et.
  - destruct (where_wf (vok := vok) treeFuel g 0 pred n) as (o & E1 & Ho & He); auto using fuelBin_tree.
    rewrite E1. cbn [bind]. eexists; split; [reflexivity|]. split; [|auto]. split; auto.
    unfold tel. simpl. rewrite He. reflexivity.
  - eexists; split; [reflexivity|]. split; auto. rewrite Et. reflexivity.
Qed.

Lemma t_reduce_ok g r t : tok t -> gaugeOk g ->
  t_reduce g r t = Ok (option_map (red r) (t_root t)).
Proof.
  intros [H _] Hg. unfold t_reduce. destruct (t_root t) as [n|]; auto.
  rewrite (reduce_wf (vok := vok)); auto using fuelGet_tree.
Qed.

Lemma t_vet_ok t : tok t -> t_vet t = Ok tt.
Proof.
  intros [H Hc]. unfold t_vet, tel in *. destruct (t_root t) as [n|].
  - rewrite (vet_wf (vok := vok) treeFuel 0); auto using fuelGet_tree.
    + cbn [bind]. rewrite Hc. simpl. rewrite Z.eqb_refl. reflexivity.
    + intros a b k _ _ Hk. lia.
  - rewrite Hc. reflexivity.
Qed.

Lemma b_add_ok b v : tok b -> vok v ->
  exists r, b_add b v = Ok r /\ tok r /\
    (forall w, vok w -> lookup (tel r) w = if veq v w then Some v else lookup (tel b) w) /\
    t_count r = (t_count b + if isSome (lookup (tel b) v) then 0 else 1)%Z.
Proof.
  intros [H Hc] Hv. unfold b_add, tel in *. destruct (t_root b) as [n|].
  - destruct (addFast_wf (vok := vok) 0 treeFuel n v) as (r & m & E1 & Hwf & (H1 & H2 & H3)); auto using fuelAt_tree.
    rewrite E1. cbn [bind]. eexists; split; [reflexivity|]. split; [|split].
    + split; [apply wfo_Some; auto|]. unfold tel. cbn [t_count t_root elemso] in *. lia.
    + intros w Hw. simpl in *. rewrite H1 by auto. unfold upd, rhs. destruct (veq v w); auto.
      destruct (lookup (elems n) v); auto.
    + cbn [t_count t_root elemso] in *. unfold hit in H3. destruct (isSome _); lia.
  - eexists; split; [reflexivity|]. split; [|split].
    + split; [|reflexivity]. apply wfo_Some. constructor; auto; lia.
    + intros w Hw. reflexivity.
    + simpl in *. lia.
Qed.

Lemma b_addArgs_ok args b v : tok b -> vok v -> c_eq args = veq -> cfok (vok := vok) (c_f args) ->
  exists r, b_addArgs args b v = Ok r /\ tok r /\
    (forall w, vok w -> lookup (tel r) w = upd (c_f args) (tel b) v w).
Proof.
  intros [H Hc] Hv Heq Hf. unfold b_addArgs, tel in *. destruct (t_root b) as [n|].
  - destruct (add_wf' (vok := vok) 0 treeFuel args n v) as (r & m & E1 & Hwf & (H1 & H2 & H3)); auto using fuelAt_tree.
    rewrite E1. cbn [bind]. eexists; split; [reflexivity|]. split; [|auto].
    split; [apply wfo_Some; auto|]. unfold tel. cbn [t_count t_root elemso] in *. lia.
  - eexists; split; [reflexivity|]. split.
    + split; [|reflexivity]. apply wfo_Some. constructor; auto; lia.
    + intros w Hw. reflexivity.
Qed.

Lemma b_remove_ok b v : tok b -> vok v ->
  exists r, b_remove b v = Ok r /\ tok r /\
    (forall w, vok w -> lookup (tel r) w = if veq v w then None else lookup (tel b) w) /\
    t_count r = (t_count b - if isSome (lookup (tel b) v) then 1 else 0)%Z.
Proof.
  intros [H Hc] Hv. unfold b_remove, tel in *. destruct (t_root b) as [n|] eqn:Er.
  - destruct (remove_wf (vok := vok) treeFuel 0 n v) as (o & m & E1 & Hwf & (H1 & H2 & H3)); auto using fuelAt_tree.
    rewrite E1. cbn [bind]. eexists; split; [reflexivity|]. split; [|split].
    + split; auto. unfold tel. cbn [t_count t_root elemso] in *. lia.
    + intros w Hw. simpl in *. rewrite H1 by auto. reflexivity.
    + cbn [t_count t_root elemso] in *. unfold hit in H3. destruct (isSome _); lia.
  - eexists; split; [reflexivity|]. split; [|split].
    + split; [rewrite Er; apply wfo_None|]. unfold tel; rewrite Er; auto.
    + intros w Hw. rewrite Er. simpl. destruct (veq v w); reflexivity.
    + simpl in *. lia.
Qed.

(** ** Adding a list of values *)

Definition findLast (vs : list T) (w : T) : option T := find (fun e => veq e w) (rev vs).

Lemma find_app {A} (p : A -> bool) l1 l2 :
  find p (l1 ++ l2) = match find p l1 with Some x => Some x | None => find p l2 end.
Proof. induction l1 as [|a l1 IH]; simpl; auto. destruct (p a); auto. Qed.

Lemma b_addAll_ok {A} (f : A -> T) vs : forall b, tok b -> (forall v, In v vs -> vok (f v)) ->
  exists r, foldM (fun b v => b_add b (f v)) b vs = Ok r /\ tok r /\
    (forall w, vok w -> lookup (tel r) w =
       match findLast (map f vs) w with Some e => Some e | None => lookup (tel b) w end).
Proof.
  induction vs as [|v vs IH]; intros b Hb Hvs; cbn [foldM].
  - exists b. split; auto.
  - destruct (b_add_ok b (f v)) as (r & E1 & Hr & Hl & _); auto.
    { apply Hvs; left; auto. }
    rewrite E1. cbn [bind]. destruct (IH r Hr) as (r' & E2 & Hr' & Hl').
    { intros x Hx. apply Hvs; right; auto. }
    exists r'. split; auto. split; auto. intros w Hw. rewrite Hl' by auto.
    unfold findLast. cbn [map rev]. rewrite find_app. simpl.
    destruct (find _ (rev (map f vs))); auto. rewrite Hl by auto. destruct (veq (f v) w); auto.
Qed.

Lemma findLast_None vs w : findLast vs w = None <-> forall v, In v vs -> veq v w = false.
Proof.
  unfold findLast. split.
  - intros H v Hv. eapply find_none in H; eauto. apply in_rev in Hv. auto.
  - intros H. destruct (find _ (rev vs)) as [e|] eqn:Ef; auto. apply find_some in Ef as [He Hq].
    apply in_rev in He. rewrite H in Hq by auto. discriminate.
Qed.

Lemma findLast_Some vs w e : findLast vs w = Some e -> In e vs /\ veq e w = true.
Proof. unfold findLast. intros H. apply find_some in H as [H1 H2]. apply in_rev in H1. auto. Qed.

End TreeFacts.

Arguments tok {E T K} vok _.

Section TreeMap.
Local Opaque maxTreeDepth fanout fb.
Context {E : Env} {T U : Type} {K : Key T} {vok : T -> Prop} {KO : KeyOk K vok}.
Context {KU : Key U} {uok : U -> Prop} {KUO : KeyOk KU uok}.

Lemma t_map_ok (f : T -> U) t : tok vok t -> (forall e, In e (tel t) -> uok (f e)) ->
  exists r, t_map f t = Ok r /\ tok uok r /\
    (forall w, uok w -> lookup (tel r) w = findLast (map f (tel t)) w).
Proof.
  intros Ht Hf. unfold t_map. rewrite (t_range_ok (vok := vok)) by auto. cbn [bind].
  destruct (b_addAll_ok (vok := uok) f (tel t) emptyTree) as (r & E1 & Hr & Hl); auto using tok_empty.
  destruct (t_root t) as [n|] eqn:Et.
  - rewrite E1. cbn [bind]. exists r. split; auto. split; auto. intros w Hw. rewrite Hl by auto. simpl.
    destruct (findLast (map f (tel t)) w); auto.
  - exists emptyTree. split; auto. split; [apply tok_empty|].
    unfold tel. rewrite Et. auto.
Qed.
End TreeMap.
