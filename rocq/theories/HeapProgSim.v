(** * HeapProgSim: programs on the heap agree with programs of the pure model as long as no claimed slot is overwritten. *)
From Verif Require Import Base Bits Env EnvFacts Node NodeWf NodeAdd NodeRemove Tree TreeFacts.
From Verif Require Import HeapModel HeapFrame HeapOwn HeapRep HeapSim HeapSim2 HeapProg.
Local Open Scope nat_scope.

(** ** Commands that never change a set *)

Section Quiet.
Context {E : Env} {T : Type} {K : Key T} (grow : nat -> nat -> nat).
Notation heap := (heap (T := T)).
Notation M := (M (T := T)).
Local Opaque maxTreeDepth fanout fb.

Lemma adds_tH_without t v : adds (tH_without grow t v).
Proof.
  unfold tH_without. destruct (pt_root t); [|apply adds_ret]. apply adds_bind; [apply adds_withoutH|]. intros [o m]. apply adds_ret.
Qed.
Lemma adds_tH_difference g t u : adds (tH_difference grow g t u).
Proof.
  unfold tH_difference. destruct (pt_root t), (pt_root u); try apply adds_ret.
  apply adds_bind; [apply adds_differenceH|]. intros [o m]. apply adds_ret.
Qed.
Lemma adds_tH_intersection g t u : adds (tH_intersection grow g t u).
Proof.
  unfold tH_intersection. destruct (pt_root t), (pt_root u); try apply adds_ret.
  destruct (_ <? _)%Z; (apply adds_bind; [apply adds_intersectionH|]; intros [o m]; apply adds_ret).
Qed.
Lemma adds_tH_where g pred t : adds (tH_where grow g pred t).
Proof.
  unfold tH_where. destruct (pt_root t); [|apply adds_ret]. apply adds_bind; [apply adds_whereH|]. intros [o m]. apply adds_ret.
Qed.

(** All commands except With and Combine (Union, Merge, Update, SymmetricDifference). *)
Definition quietCmd (c : cmd T) : bool := match c with CWith _ _ | CCombine _ _ _ => false | _ => true end.

Lemma makeSet_heap (st : state (T := T)) m : st_heap (makeSet st m) = snd (m (st_heap st)).
Proof. unfold makeSet. destruct (m (st_heap st)) as [[t| |] h]; reflexivity. Qed.

Lemma adds_stable (st : state (T := T)) m t : tagInv st -> adds m -> In t (st_sets st) -> stable (st_heap st) (st_heap (makeSet st m)) t.
Proof.
  intros (ob & oa & Ht & Hs & _) Ha Hin. rewrite makeSet_heap. destruct (Ha (st_heap st)) as ([l1 E1] & [l2 E2] & l3 & E3 & E4).
  exists (fun p => p < length (h_objs (st_heap st))), (fun r => r < length (h_arrs (st_heap st))). split; [|split; [|split; [|split]]].
  - intros p Hp. apply (Hs t Hin p Hp).
  - intros p o Hp Hn. eapply points_imp; [exact (Ht p o Hn)| |]; cbv beta; intros x [Hx _]; auto.
  - intros p Hp. rewrite E1, nth_error_app1; auto.
  - intros p Hp. rewrite E2, nth_error_app1; auto.
  - exists l3. split; [exact E3|]. eapply Forall_impl; [|exact E4]. intros [p|r i|r]; cbn; lia.
Qed.

Lemma quiet_step (st : state (T := T)) c t : tagInv st -> quietCmd c = true -> In t (st_sets st) ->
  stable (st_heap st) (st_heap (step grow st c)) t.
Proof.
  intros Hi Hq Hin. destruct c as [|b v|b v|b|s v|s v|f s u|s u|s u|pred s]; try discriminate.
  - apply (step_tag grow st CNew); auto.
  - apply (step_tag grow st (CAdd b v)); auto.
  - apply (step_tag grow st (CRemove b v)); auto.
  - apply (step_tag grow st (CFinish b)); auto.
  - cbn [step]. destruct (nth_error (st_sets st) s); [|apply stable_refl]. apply adds_stable; auto. apply adds_tH_without.
  - cbn [step]. destruct (nth_error (st_sets st) s), (nth_error (st_sets st) u); try apply stable_refl. apply adds_stable; auto.
    apply adds_tH_difference.
  - cbn [step]. destruct (nth_error (st_sets st) s), (nth_error (st_sets st) u); try apply stable_refl. apply adds_stable; auto.
    apply adds_tH_intersection.
  - cbn [step]. destruct (nth_error (st_sets st) s); [|apply stable_refl]. apply adds_stable; auto. apply adds_tH_where.
Qed.

Lemma quiet_run cs : forall (st : state (T := T)), tagInv st -> forallb quietCmd cs = true ->
  forall i t, nth_error (st_sets st) i = Some t ->
  nth_error (st_sets (run grow cs st)) i = Some t /\ unchanged (st_heap st) (st_heap (run grow cs st)) t.
Proof.
  induction cs as [|c cs IH]; intros st Hi Hb i t Ht; cbn; [split; [auto|apply unchanged_refl]|].
  cbn in Hb. apply andb_prop in Hb as [Hb1 Hb2]. destruct (step_tag grow st c Hi) as (H1 & _ & _).
  destruct (step_sets grow st c) as [l Hl].
  destruct (IH (step grow st c) H1 Hb2 i t) as [A1 A2].
  { rewrite Hl, nth_error_app1; auto. eapply lt_nth; eauto. }
  split; auto. eapply unchanged_trans; [|exact A2]. apply stable_unchanged. apply quiet_step; auto. eapply nth_error_In; eauto.
Qed.

(** ** Stable regions and representation *)

Lemma rep_region_mut (P Q : nat -> Prop) (h h' : heap) : closed P Q h ->
  (forall p, P p -> nth_error (h_objs h') p = nth_error (h_objs h) p) ->
  (forall r, Q r -> nth_error (h_arrs h') r = nth_error (h_arrs h) r) ->
  (forall p n, rep h p n -> P p -> rep h' p n) /\ (forall d ds, reps h d ds -> (forall c, In (Some c) d -> P c) -> reps h' d ds).
Proof.
  intros Hc H1 H2. apply (rep_mut h (fun p n => P p -> rep h' p n) (fun d ds => (forall c, In (Some c) d -> P c) -> reps h' d ds)).
  - intros p a H Hp. constructor. rewrite H1; auto.
  - intros p a b H Hp. constructor. rewrite H1; auto.
  - intros p r l H (a & Ha & Hl) Hp. econstructor; [rewrite H1; eauto|]. exists a. rewrite H2; auto. exact (Hc p _ Hp H).
  - intros p m d ds H _ IH Hp. econstructor; [rewrite H1; eauto|]. apply IH. exact (Hc p _ Hp H).
  - intros _. constructor.
  - intros d ds _ IH Hd. constructor. apply IH. intros c Hi. apply Hd. cbn; auto.
  - intros c n d ds _ IH1 _ IH2 Hd. constructor; [apply IH1, Hd; cbn; auto|]. apply IH2. intros c' Hi. apply Hd. cbn; auto.
Qed.

Lemma repo_stable (h h' : heap) t o : stable h h' t -> repo h (pt_root t) o -> repo h' (pt_root t) o.
Proof.
  intros (P & Q & Hr & Hc & H1 & H2 & _) H. inversion H as [E1|p n Hp E1]; [constructor|]. constructor.
  apply (proj1 (rep_region_mut P Q h h' Hc H1 H2)); auto.
Qed.

Lemma owno_stable (h h' : heap) t o L R : stable h h' t -> owno h (pt_root t) o L R -> owno h' (pt_root t) o L R.
Proof.
  intros (P & Q & Hr & Hc & H1 & H2 & _) H. destruct (owno_closed P Q h (pt_root t) o L R Hc H) as [A1 A2]; [exact Hr|].
  eapply owno_agree; [exact H|intros q Hq; apply H1; auto|intros q Hq; apply H2; auto].
Qed.

(** ** Reading what is represented *)

(** The node up to some depth. *)
Fixpoint cutAll (f : node T -> option (node T)) (d : list (option (node T))) : option (list (option (node T))) :=
  match d with
  | [] => Some []
  | None :: d' => option_map (cons None) (cutAll f d')
  | Some c :: d' => match f c, cutAll f d' with Some n, Some l => Some (Some n :: l) | _, _ => None end
  end.
Fixpoint cut (fuel : nat) (n : node T) : option (node T) :=
  match fuel with
  | O => None
  | S k => match n with Branch m d => option_map (Branch m) (cutAll (cut k) d) | _ => Some n end
  end.

Lemma rep_cut fuel : forall (h : heap) p n, rep h p n -> readN fuel h p = cut fuel n.
Proof.
  induction fuel as [|k IH]; intros h p n H; [reflexivity|]. cbn [readN cut].
  inversion H as [p0 a Hp|p0 a b Hp|p0 r l Hp Hl|p0 m da ds Hp Hds]; subst; rewrite Hp; auto.
  - destruct Hl as (a & -> & _ & _ & Hf). cbn. rewrite Hf. auto.
  - f_equal. clear Hp H. induction Hds as [|d ds H IHd|c n d ds H1 H2 IHd]; cbn [readAll cutAll]; auto.
    + rewrite IHd. auto.
    + rewrite IHd, (IH h c n H1). auto.
Qed.

Lemma cut_shape j : forall fuel d (n : node T), maxTreeDepth <= d + j -> j < fuel -> shape true d n -> cut fuel n = Some n.
Proof.
  induction j as [|j IH]; intros fuel d n Hd Hf Hs; (destruct fuel as [|k]; [lia|]); cbn [cut]; auto;
    destruct n as [a|a b|l|m ds]; auto; inversion Hs as [| | |? ? ? Hlt Hlen Hch]; subst.
  - specialize (Hlt eq_refl). lia.
  - assert (H : cutAll (cut k) ds = Some ds); [|rewrite H; auto].
    assert (Hch' : forall c, In (Some c) ds -> cut k c = Some c).
    { intros c Hin. apply In_nth_error in Hin as [i Hi]. apply (IH k (S d)); [lia|lia|]. apply (Hch i). unfold child.
      erewrite nth_error_nth; eauto. }
    clear Hlen Hch Hs. induction ds as [|[c|] ds IHd]; cbn [cutAll]; auto.
    + rewrite (Hch' c), IHd; cbn; auto. intros c' Hi. apply Hch'. cbn; auto.
    + rewrite IHd; auto. intros c' Hi. apply Hch'. cbn; auto.
Qed.

Lemma repo_read (h : heap) t (u : tree T) fuel : maxTreeDepth < fuel -> repo h (pt_root t) (t_root u) -> pt_count t = t_count u ->
  shapeo 0 (t_root u) -> readT fuel h t = Some u.
Proof.
  intros Hf H Hc Hs. unfold readT. destruct u as [o c]. cbn [t_root t_count] in *. inversion H as [E1|p n Hp E1 E2]; subst; auto.
  rewrite (rep_cut _ _ _ _ Hp). rewrite (cut_shape maxTreeDepth fuel 0 n); auto.
Qed.

Lemma repo_unchanged (h h' : heap) t o : repo h (pt_root t) o -> repo h' (pt_root t) o -> unchanged h h' t.
Proof.
  intros H1 H2 fuel. unfold readT. inversion H1 as [E1 E2|p n Hp E1 E2]; auto; subst. rewrite <- E1 in H2. inversion H2; subst.
  erewrite !rep_cut; eauto.
Qed.

End Quiet.

(** ** Programs of the pure model *)

Section Pure.
Context {E : Env} {T : Type} {K : Key T}.

(** The same programs over trees as values (Tree.v). *)
Record pstate := mkPS { ps_sets : list (tree T); ps_builders : list (tree T) }.
Definition pinitial : pstate := mkPS [] [].
Definition pmakeSet (ps : pstate) (r : res (tree T)) : pstate :=
  match r with Ok t => mkPS (ps_sets ps ++ [t]) (ps_builders ps) | _ => ps end.
Definition pchangeBuilder (ps : pstate) (b : nat) (r : res (tree T)) : pstate :=
  match r with Ok t => mkPS (ps_sets ps) (set_nth (ps_builders ps) b t) | _ => ps end.
Definition pstep (ps : pstate) (c : cmd T) : pstate :=
  let set1 s k := match nth_error (ps_sets ps) s with Some t => pmakeSet ps (k t) | None => ps end in
  let set2 s u k := match nth_error (ps_sets ps) s, nth_error (ps_sets ps) u with
                    | Some t, Some t' => pmakeSet ps (k t t') | _, _ => ps end in
  let bld b k := match nth_error (ps_builders ps) b with Some t => pchangeBuilder ps b (k t) | None => ps end in
  match c with
  | CNew => mkPS (ps_sets ps) (ps_builders ps ++ [emptyTree])
  | CAdd b v => bld b (fun t => b_add t v)
  | CRemove b v => bld b (fun t => b_remove t v)
  | CFinish b =>
      match nth_error (ps_builders ps) b with
      | Some t => mkPS (ps_sets ps ++ [fst (b_finish t)]) (set_nth (ps_builders ps) b (snd (b_finish t)))
      | None => ps
      end
  | CWith s v => set1 s (fun t => t_with t v)
  | CWithout s v => set1 s (fun t => t_without t v)
  | CCombine f s u => set2 s u (fun t t' => t_combine (combineArgs (t_gauge t) f) t t')
  | CDifference s u => set2 s u (fun t t' => t_difference NonParallel t t')
  | CIntersection s u => set2 s u (fun t t' => t_intersection (t_gauge t) t t')
  | CWhere pred s => set1 s (fun t => t_where (t_gauge t) pred t)
  end.
Definition prun (cs : list (cmd T)) (ps : pstate) : pstate := fold_left pstep cs ps.

End Pure.

Section ProgSim.
Context {E : Env} {EO : EnvOk E} {T : Type} {K : Key T} {vok : T -> Prop} {KO : KeyOk K vok} (grow : nat -> nat -> nat).
Notation heap := (heap (T := T)).
Notation M := (M (T := T)).
Notation node := (node T).
Notation tree := (tree T).
Notation tok := (tok vok).
Local Opaque maxTreeDepth fanout fb.

(** The elements a program uses are valid, and the functions given to Merge keep keys. *)
Definition cmdOk (c : cmd T) : Prop :=
  match c with
  | CAdd _ v | CRemove _ v | CWith _ v | CWithout _ v => vok v
  | CCombine f _ _ => cfok (vok := vok) f
  | _ => True
  end.

Definition setRel (h : heap) (t : ptree) (u : tree) : Prop :=
  repo h (pt_root t) (t_root u) /\ pt_count t = t_count u /\ tok u.
Definition bldRel (h : heap) (t : ptree) (u : tree) : Prop := exists L R,
  owno h (pt_root t) (t_root u) L R /\ NoDup L /\ NoDup R /\ pt_count t = t_count u /\ tok u.
Definition all2 {A B} (Rel : A -> B -> Prop) (l : list A) (l' : list B) : Prop :=
  length l = length l' /\ forall i a b, nth_error l i = Some a -> nth_error l' i = Some b -> Rel a b.
Definition related (st : state) (ps : pstate) : Prop :=
  tagInv st /\ all2 (setRel (st_heap st)) (st_sets st) (ps_sets ps) /\ all2 (bldRel (st_heap st)) (st_builders st) (ps_builders ps).

Lemma all2_nil {A B} (Rel : A -> B -> Prop) : all2 Rel [] [].
Proof. split; auto. intros i a b H. destruct i; discriminate. Qed.
Lemma all2_snoc {A B} (Rel : A -> B -> Prop) l l' a b : all2 Rel l l' -> Rel a b -> all2 Rel (l ++ [a]) (l' ++ [b]).
Proof.
  intros [H1 H2] H3. split; [rewrite !app_length; cbn; lia|]. intros i x y Hx Hy.
  destruct (Nat.lt_ge_cases i (length l)) as [Hl|Hl].
  - rewrite nth_error_app1 in Hx, Hy by lia. eauto.
  - rewrite nth_error_app2 in Hx, Hy by lia. rewrite H1 in Hx. destruct (i - length l') as [|j]; [|destruct j; discriminate].
    cbn in *. congruence.
Qed.
Lemma all2_imp {A B} (Rel Rel' : A -> B -> Prop) l l' : all2 Rel l l' ->
  (forall i a b, nth_error l i = Some a -> Rel a b -> Rel' a b) -> all2 Rel' l l'.
Proof. intros [H1 H2] H3. split; eauto. Qed.
Lemma all2_set {A B} (Rel Rel' : A -> B -> Prop) l l' i a b : all2 Rel l l' -> Rel' a b ->
  (forall j x y, j <> i -> nth_error l j = Some x -> Rel x y -> Rel' x y) -> all2 Rel' (set_nth l i a) (set_nth l' i b).
Proof.
  intros [H1 H2] H3 H4. split; [rewrite !set_nth_length; auto|]. intros j x y Hx Hy. destruct (Nat.eq_dec i j) as [<-|Hn].
  - assert (i < length l) by (rewrite <- (set_nth_length l i a); eapply lt_nth; eauto).
    rewrite nth_error_set_nth_eq in Hx by auto. rewrite nth_error_set_nth_eq in Hy by lia. congruence.
  - rewrite nth_error_set_nth_ne in Hx by auto. rewrite nth_error_set_nth_ne in Hy by auto. eapply H4; eauto.
Qed.
Lemma all2_nth {A B} (Rel : A -> B -> Prop) l l' i a : all2 Rel l l' -> nth_error l i = Some a ->
  exists b, nth_error l' i = Some b /\ Rel a b.
Proof.
  intros [H1 H2] Ha. destruct (nth_error l' i) as [b|] eqn:Eb; [exists b; eauto|].
  apply nth_error_None in Eb. apply lt_nth in Ha. lia.
Qed.
Lemma all2_none {A B} (Rel : A -> B -> Prop) l l' i : all2 Rel l l' -> nth_error l i = None -> nth_error l' i = None.
Proof. intros [H1 H2] Ha. apply nth_error_None in Ha. apply nth_error_None. lia. Qed.

Lemma tok_shape u : tok u -> shapeo 0 (t_root u).
Proof. intros [H _] n En. eapply wf_shape. apply H; auto. Qed.

(** ** Operations on trees *)

Definition Rtree (t : ptree) (u : tree) (h : heap) : Prop := repo h (pt_root t) (t_root u) /\ pt_count t = t_count u.

Local Ltac roots Hr n p Hn := inversion Hr as [?|p n Hn ?]; subst.

Lemma mono_tret {A} (k : A -> ptree) : forall a, mono (T := T) (ret (k a)).
Proof. intros. apply mono_ret. Qed.

Lemma sim_tH_with h t u v : setRel h t u -> sim h (tH_with grow t v) (t_with u v) Rtree.
Proof.
  intros (Hr & Hc & Hok). assert (Hsh := tok_shape u Hok). unfold tH_with, t_with.
  destruct (pt_root t) as [p|], (t_root u) as [n|]; inversion Hr; subst.
  - rewrite (withFast_with NonParallel). eapply sim_bind.
    + apply (sim_with grow treeFuel (mkCombineArgs NonParallel veq rhs) h p n v 0); auto.
    + apply mono_withH.
    + intros [r m]. apply mono_ret.
    + intros [r m] [r' m'] h1 K1 (H1' & H2' & _). cbn [fst snd] in *. apply sim_ret. split; cbn; [constructor; auto|congruence].
  - apply sim_alloc. intros h1 K1 Hq _. apply sim_ret. split; cbn; auto. constructor. constructor. auto.
Qed.

Lemma sim_tH_without h t u v : setRel h t u -> sim h (tH_without grow t v) (t_without u v) Rtree.
Proof.
  intros (Hr & Hc & Hok). assert (Hsh := tok_shape u Hok). unfold tH_without, t_without.
  destruct (pt_root t) as [p|] eqn:Et, (t_root u) as [n|] eqn:Eu; inversion Hr; subst.
  - eapply sim_bind.
    + apply (sim_without grow treeFuel h p n v 0); auto.
    + apply mono_withoutH.
    + intros [r m]. apply mono_ret.
    + intros [r m] [r' m'] h1 K1 ((H1' & H2' & _) & _). cbn [fst snd] in *. apply sim_ret. split; cbn; [auto|congruence].
  - apply sim_ret. split; auto. rewrite Et, Eu. constructor.
Qed.

Lemma sim_tH_combine h args t u t' u' : setRel h t u -> setRel h t' u' ->
  sim h (tH_combine grow args t t') (t_combine args u u') Rtree.
Proof.
  intros (Hr & Hc & Hok) (Hr' & Hc' & Hok'). assert (Hsh := tok_shape u Hok). assert (Hsh' := tok_shape u' Hok').
  unfold tH_combine, t_combine.
  destruct (pt_root t) as [p|] eqn:Et, (t_root u) as [n|] eqn:Eu; inversion Hr; subst.
  - destruct (pt_root t') as [p'|] eqn:Et', (t_root u') as [n'|] eqn:Eu'; inversion Hr'; subst.
    + eapply sim_bind.
      * apply (sim_combine grow treeFuel args h p p' n n' 0); auto.
      * apply mono_combineH.
      * intros [r m]. apply mono_ret.
      * intros [r m] [r' m'] h1 K1 (H1' & H2' & _). cbn [fst snd] in *. apply sim_ret. split; cbn; [constructor; auto|congruence].
    + apply sim_ret. split; auto. rewrite Et, Eu. auto.
  - apply sim_ret. split; auto.
Qed.

Lemma sim_tH_difference h g t u t' u' : setRel h t u -> setRel h t' u' ->
  sim h (tH_difference grow g t t') (t_difference g u u') Rtree.
Proof.
  intros (Hr & Hc & Hok) (Hr' & Hc' & Hok'). assert (Hsh := tok_shape u Hok). assert (Hsh' := tok_shape u' Hok').
  unfold tH_difference, t_difference.
  destruct (pt_root t) as [p|] eqn:Et, (t_root u) as [n|] eqn:Eu; inversion Hr; subst.
  - destruct (pt_root t') as [p'|] eqn:Et', (t_root u') as [n'|] eqn:Eu'; inversion Hr'; subst.
    + eapply sim_bind.
      * apply (sim_difference grow treeFuel g h p p' n n' 0); auto.
      * apply mono_differenceH.
      * intros [r m]. apply mono_ret.
      * intros [r m] [r' m'] h1 K1 (H1' & H2' & _). cbn [fst snd] in *. apply sim_ret. split; cbn; [auto|congruence].
    + apply sim_ret. split; auto. rewrite Et, Eu. auto.
  - apply sim_ret. split; auto. rewrite Et, Eu. auto.
Qed.

Lemma sim_tH_intersection h g t u t' u' : setRel h t u -> setRel h t' u' ->
  sim h (tH_intersection grow g t t') (t_intersection g u u') Rtree.
Proof.
  intros (Hr & Hc & Hok) (Hr' & Hc' & Hok'). assert (Hsh := tok_shape u Hok). assert (Hsh' := tok_shape u' Hok').
  unfold tH_intersection, t_intersection. rewrite Hc, Hc'.
  assert (He : sim h (ret emptyPT) (Ok emptyTree) Rtree) by (apply sim_ret; split; cbn; auto; constructor).
  destruct (pt_root t) as [p|] eqn:Et, (t_root u) as [n|] eqn:Eu; inversion Hr; subst; auto.
  destruct (pt_root t') as [p'|] eqn:Et', (t_root u') as [n'|] eqn:Eu'; inversion Hr'; subst; auto.
  destruct (_ <? _)%Z.
  - eapply sim_bind.
    * apply (sim_intersection grow treeFuel g h p' p n' n 0); auto.
    * apply mono_intersectionH.
    * intros [r m]. apply mono_ret.
    * intros [r m] [r' m'] h1 K1 (H1' & H2' & _). cbn [fst snd] in *. apply sim_ret. split; cbn; auto.
  - eapply sim_bind.
    * apply (sim_intersection grow treeFuel g h p p' n n' 0); auto.
    * apply mono_intersectionH.
    * intros [r m]. apply mono_ret.
    * intros [r m] [r' m'] h1 K1 (H1' & H2' & _). cbn [fst snd] in *. apply sim_ret. split; cbn; auto.
Qed.

Lemma sim_tH_where h g pred t u : setRel h t u -> sim h (tH_where grow g pred t) (t_where g pred u) Rtree.
Proof.
  intros (Hr & Hc & Hok). unfold tH_where, t_where.
  destruct (pt_root t) as [p|] eqn:Et, (t_root u) as [n|] eqn:Eu; inversion Hr; subst.
  - eapply sim_bind.
    + apply (sim_where (vok := vok) grow treeFuel g pred h p n 0); auto. apply Hok; auto.
    + apply mono_whereH.
    + intros [r m]. apply mono_ret.
    + intros [r m] [r' m'] h1 K1 (H1' & H2' & _). cbn [fst snd] in *. apply sim_ret. split; cbn; auto.
  - apply sim_ret. split; auto. rewrite Et, Eu. constructor.
Qed.

(** ** Operations on builders *)

Definition bldSim (h : heap) (o : res ptree * heap) (r : res tree) : Prop :=
  h_over (snd o) = h_over h /\
  agrees (fst o) r (fun t u => pt_count t = t_count u /\ exists L R, owno (snd o) (pt_root t) (t_root u) L R /\ NoDup L /\ NoDup R).

Lemma bldSim_same h t u L R : owno h (pt_root t) (t_root u) L R -> NoDup L -> NoDup R -> pt_count t = t_count u ->
  bldSim h (Ok t, h) (Ok u).
Proof. intros. split; cbn; auto. exists t. split; auto. split; auto. exists L, R. auto. Qed.

Lemma bldSim_add h t u v : bldRel h t u -> bldSim h (bH_add grow t v h) (b_add u v).
Proof.
  intros (L & R & Ho & HL & HR & Hc & Hok). assert (Hsh := tok_shape u Hok). unfold bH_add, b_add.
  destruct (pt_root t) as [p|] eqn:Et, (t_root u) as [n|] eqn:Eu; inversion Ho as [|p0 n0 L0 R0 Hown]; subst.
  - assert (Ha := add_own grow true treeFuel (mkCombineArgs NonParallel veq (fun _ b => b)) p n v 0 h L R Hown HL HR (Hsh n eq_refl)).
    cbn [c_eq c_f] in Ha. fold (addFastH grow treeFuel p v 0 (newHasher v 0)) in Ha. rewrite <- add_addFast in Ha.
    destruct Ha as [Hov Hres]. destruct (addFastH grow treeFuel p v 0 (newHasher v 0) h) as [fo fh] eqn:EF. cbn [fst snd] in *.
    destruct (addFast treeFuel n v 0 (newHasher v 0)) as [[n' m']| |]; cbn [bind].
    + destruct Hres as (q & Lq & Rq & -> & Ho' & HLq & HRq & _). rewrite (bindM_ok _ _ _ _ _ EF). split; auto. cbn.
      eexists. split; [reflexivity|]. split; [cbn; congruence|]. exists Lq, Rq. split; auto. constructor; auto.
    + subst fo. rewrite (bindM_panic _ _ _ _ EF). split; auto. reflexivity.
    + subst fo. rewrite (bindM_fuel _ _ _ _ EF). split; auto. reflexivity.
  - split; auto. cbn. eexists. split; [reflexivity|]. split; auto. exists [length (h_objs h)], []. cbn.
    split; [constructor; constructor; cbn; apply nth_error_new|]. split; repeat constructor; auto.
Qed.

Lemma bldSim_remove h t u v : bldRel h t u -> bldSim h (bH_remove grow t v h) (b_remove u v).
Proof.
  intros (L & R & Ho & HL & HR & Hc & Hok). assert (Hsh := tok_shape u Hok). unfold bH_remove, b_remove.
  destruct (pt_root t) as [p|] eqn:Et, (t_root u) as [n|] eqn:Eu; inversion Ho as [|p0 n0 L0 R0 Hown]; subst.
  - destruct (remove_own grow treeFuel p n v 0 h L R Hown HL HR (Hsh n eq_refl)) as [Hov Hres].
    destruct (removeH grow treeFuel p v 0 (newHasher v 0) h) as [fo fh] eqn:EF. cbn [fst snd] in *.
    destruct (remove_ treeFuel n v 0 (newHasher v 0)) as [[n' m']| |]; cbn [bind agrees] in *.
    + destruct Hres as ([q m] & -> & Em & Lq & Rq & Ho' & HLq & HRq & _). cbn [fst snd] in *. rewrite (bindM_ok _ _ _ _ _ EF).
      split; auto. cbn. eexists. split; [reflexivity|]. split; [cbn; congruence|]. exists Lq, Rq. auto.
    + subst fo. rewrite (bindM_panic _ _ _ _ EF). split; auto. reflexivity.
    + subst fo. rewrite (bindM_fuel _ _ _ _ EF). split; auto. reflexivity.
  - apply (bldSim_same h t u [] []); auto. rewrite Et, Eu. constructor.
Qed.

(** ** Programs *)

Lemma related_initial : related initial pinitial.
Proof. split; [apply tagInv_initial|]. split; apply all2_nil. Qed.

Lemma bldRel_stable h h' t u : stable h h' t -> bldRel h t u -> bldRel h' t u.
Proof. intros Hs (L & R & H & Hrest). exists L, R. split; auto. eapply owno_stable; eauto. Qed.
Lemma setRel_stable h h' t u : stable h h' t -> setRel h t u -> setRel h' t u.
Proof. intros Hs (H & Hrest). split; auto. eapply repo_stable; eauto. Qed.
Lemma setRel_kept h h' t u : kept h h' -> setRel h t u -> setRel h' t u.
Proof. intros Hs (H & Hrest). split; auto. eapply repo_kept; eauto. Qed.
Lemma bldRel_set h t u : bldRel h t u -> setRel h t u.
Proof.
  intros (L & R & H & _ & _ & Hc & Hok). split; auto. inversion H; [constructor|]. constructor. eapply own_rep; eauto.
Qed.

Lemma related_makeSet st ps m r : related st ps ->
  sim (st_heap st) m r Rtree -> (forall u, r = Ok u -> tok u) -> h_over (st_heap (makeSet st m)) = h_over (st_heap st) ->
  tagInv (makeSet st m) -> (forall i t, nth_error (st_builders st) i = Some t -> stable (st_heap st) (st_heap (makeSet st m)) t) ->
  related (makeSet st m) (pmakeSet ps r).
Proof.
  intros (Hi & Hs & Hb) Hsim Hr Hov Hi' Hst. split; auto. rewrite makeSet_heap in *. destruct (Hsim Hov) as [K1 A1].
  assert (Hs' : all2 (setRel (snd (m (st_heap st)))) (st_sets st) (ps_sets ps)).
  { eapply all2_imp; [exact Hs|]. intros i a b Ha. apply setRel_kept; auto. }
  assert (Hb' : all2 (bldRel (snd (m (st_heap st)))) (st_builders st) (ps_builders ps)).
  { eapply all2_imp; [exact Hb|]. intros i a b Ha. apply bldRel_stable; eauto. }
  unfold makeSet, pmakeSet. destruct (m (st_heap st)) as [o h'] eqn:Em. cbn [fst snd] in *.
  destruct r as [u| |]; cbn [agrees] in A1; [|subst o; auto|subst o; auto].
  destruct A1 as (t & -> & H1 & H2). cbn. split; auto. apply all2_snoc; auto. split; auto.
Qed.

Lemma related_changeBuilder st ps b t u m r : related st ps -> nth_error (st_builders st) b = Some t -> nth_error (ps_builders ps) b = Some u ->
  bldSim (st_heap st) (m (st_heap st)) r -> (forall u, r = Ok u -> tok u) ->
  tagInv (changeBuilder st b m) ->
  (forall t, In t (st_sets st) -> stable (st_heap st) (st_heap (changeBuilder st b m)) t) ->
  (forall i t, nth_error (st_builders st) i = Some t -> i <> b -> stable (st_heap st) (st_heap (changeBuilder st b m)) t) ->
  r <> Panic -> r <> Fuel ->
  related (changeBuilder st b m) (pchangeBuilder ps b r).
Proof.
  intros (Hi & Hs & Hb) Ht Hu [Hov Hag] Hr Hi' Hst1 Hst2 Hnp Hnf. split; auto.
  assert (Hh : st_heap (changeBuilder st b m) = snd (m (st_heap st))).
  { unfold changeBuilder. destruct (m (st_heap st)) as [[x| |] h']; reflexivity. }
  rewrite Hh in *.
  assert (Hs' : all2 (setRel (snd (m (st_heap st)))) (st_sets st) (ps_sets ps)).
  { eapply all2_imp; [exact Hs|]. intros i a c Ha. apply setRel_stable. apply Hst1. eapply nth_error_In; eauto. }
  unfold changeBuilder, pchangeBuilder. destruct (m (st_heap st)) as [o h'] eqn:Em. cbn [fst snd] in *.
  destruct r as [u'| |]; cbn [agrees] in Hag; [|contradiction|contradiction].
  destruct Hag as (t' & -> & H1 & L & R & H2 & H3 & H4). cbn. split; auto. eapply all2_set; [exact Hb| |].
  - exists L, R. auto 10.
  - intros j x y Hj Hx. apply bldRel_stable. eapply Hst2; eauto.
Qed.

Theorem related_step st ps c : related st ps -> cmdOk c -> h_over (st_heap (step grow st c)) = h_over (st_heap st) ->
  related (step grow st c) (pstep ps c).
Proof.
  intros Hrel Hok Hov. destruct Hrel as (Hi & Hs & Hb) eqn:Erel. clear Erel.
  destruct (step_tag grow st c Hi) as (Hi' & Hst1 & Hst2).
  destruct c as [|b v|b v|b|s v|s v|f s u|s u|s u|pred s]; cbn [step pstep builderCmd cmdOk] in *.
  - split; auto. split; auto. cbn. apply all2_snoc; auto. exists [], []. split; [constructor|]. split; [constructor|].
    split; [constructor|]. split; auto. apply tok_empty.
  - destruct (nth_error (st_builders st) b) as [t|] eqn:Eb; [|rewrite (all2_none _ _ _ _ Hb Eb); auto].
    destruct (all2_nth _ _ _ _ _ Hb Eb) as (w & Ew & Hw). rewrite Ew.
    assert (Hwok : tok w) by (destruct Hw as (? & ? & ? & ? & ? & ? & ?); auto).
    destruct (b_add_ok (vok := vok) w v Hwok Hok) as (r & Er & Hr & _).
    eapply related_changeBuilder; eauto; try (rewrite Er; congruence).
    apply bldSim_add; auto.
  - destruct (nth_error (st_builders st) b) as [t|] eqn:Eb; [|rewrite (all2_none _ _ _ _ Hb Eb); auto].
    destruct (all2_nth _ _ _ _ _ Hb Eb) as (w & Ew & Hw). rewrite Ew.
    assert (Hwok : tok w) by (destruct Hw as (? & ? & ? & ? & ? & ? & ?); auto).
    destruct (b_remove_ok (vok := vok) w v Hwok Hok) as (r & Er & Hr & _).
    eapply related_changeBuilder; eauto; try (rewrite Er; congruence).
    apply bldSim_remove; auto.
  - destruct (nth_error (st_builders st) b) as [t|] eqn:Eb; [|rewrite (all2_none _ _ _ _ Hb Eb); auto].
    destruct (all2_nth _ _ _ _ _ Hb Eb) as (w & Ew & Hw). rewrite Ew. split; auto. cbn. split.
    + apply all2_snoc; auto. apply bldRel_set; auto.
    + eapply all2_set; [exact Hb| |auto]. exists [], []. split; [constructor|]. split; [constructor|]. split; [constructor|].
      split; auto. apply tok_empty.
  - destruct (nth_error (st_sets st) s) as [t|] eqn:Es; [|rewrite (all2_none _ _ _ _ Hs Es); auto].
    destruct (all2_nth _ _ _ _ _ Hs Es) as (w & Ew & Hw). rewrite Ew.
    apply related_makeSet; eauto; [apply sim_tH_with; auto|]. intros x Ex.
    destruct (t_with_ok (vok := vok) w v (proj2 (proj2 Hw)) Hok) as (r & Er & Hr & _). congruence.
  - destruct (nth_error (st_sets st) s) as [t|] eqn:Es; [|rewrite (all2_none _ _ _ _ Hs Es); auto].
    destruct (all2_nth _ _ _ _ _ Hs Es) as (w & Ew & Hw). rewrite Ew.
    apply related_makeSet; eauto; [apply sim_tH_without; auto|]. intros x Ex.
    destruct (t_without_ok (vok := vok) w v (proj2 (proj2 Hw)) Hok) as (r & Er & Hr & _). congruence.
  - destruct (nth_error (st_sets st) s) as [t|] eqn:Es; [|rewrite (all2_none _ _ _ _ Hs Es); auto].
    destruct (all2_nth _ _ _ _ _ Hs Es) as (w & Ew & Hw). rewrite Ew.
    destruct (nth_error (st_sets st) u) as [t'|] eqn:Eu; [|rewrite (all2_none _ _ _ _ Hs Eu); auto].
    destruct (all2_nth _ _ _ _ _ Hs Eu) as (w' & Ew' & Hw'). rewrite Ew'.
    replace (newGauge (pt_count t)) with (t_gauge w) in * by (unfold t_gauge; destruct Hw as (_ & -> & _); auto).
    apply related_makeSet; eauto; [apply sim_tH_combine; auto|]. intros x Ex.
    destruct (t_combine_ok (vok := vok) (combineArgs (t_gauge w) f) w w' (proj2 (proj2 Hw)) (proj2 (proj2 Hw')) eq_refl Hok (gaugeOk_new _ EO))
      as [[_ E1]|(_ & r & Er & Hr & _)]; congruence.
  - destruct (nth_error (st_sets st) s) as [t|] eqn:Es; [|rewrite (all2_none _ _ _ _ Hs Es); auto].
    destruct (all2_nth _ _ _ _ _ Hs Es) as (w & Ew & Hw). rewrite Ew.
    destruct (nth_error (st_sets st) u) as [t'|] eqn:Eu; [|rewrite (all2_none _ _ _ _ Hs Eu); auto].
    destruct (all2_nth _ _ _ _ _ Hs Eu) as (w' & Ew' & Hw'). rewrite Ew'.
    apply related_makeSet; eauto; [apply sim_tH_difference; auto|]. intros x Ex.
    destruct (t_difference_ok (vok := vok) NonParallel w w' (proj2 (proj2 Hw)) (proj2 (proj2 Hw')) (gaugeOk_NonParallel EO))
      as (r & Er & Hr & _); congruence.
  - destruct (nth_error (st_sets st) s) as [t|] eqn:Es; [|rewrite (all2_none _ _ _ _ Hs Es); auto].
    destruct (all2_nth _ _ _ _ _ Hs Es) as (w & Ew & Hw). rewrite Ew.
    destruct (nth_error (st_sets st) u) as [t'|] eqn:Eu; [|rewrite (all2_none _ _ _ _ Hs Eu); auto].
    destruct (all2_nth _ _ _ _ _ Hs Eu) as (w' & Ew' & Hw'). rewrite Ew'.
    replace (newGauge (pt_count t)) with (t_gauge w) in * by (unfold t_gauge; destruct Hw as (_ & -> & _); auto).
    apply related_makeSet; eauto; [apply sim_tH_intersection; auto|]. intros x Ex.
    destruct (t_intersection_ok (vok := vok) (t_gauge w) w w' (proj2 (proj2 Hw)) (proj2 (proj2 Hw')) (gaugeOk_new _ EO))
      as (r & Er & Hr & _); congruence.
  - destruct (nth_error (st_sets st) s) as [t|] eqn:Es; [|rewrite (all2_none _ _ _ _ Hs Es); auto].
    destruct (all2_nth _ _ _ _ _ Hs Es) as (w & Ew & Hw). rewrite Ew.
    replace (newGauge (pt_count t)) with (t_gauge w) in * by (unfold t_gauge; destruct Hw as (_ & -> & _); auto).
    apply related_makeSet; eauto; [apply sim_tH_where; auto|]. intros x Ex.
    destruct (t_where_ok (vok := vok) (t_gauge w) pred w (proj2 (proj2 Hw)) (gaugeOk_new _ EO)) as (r & Er & Hr & _). congruence.
Qed.

(** ** Whole programs *)

Lemma mono_removeH fuel p v d h : mono (removeH grow fuel p v d h).
Proof. eapply mono_safe. apply safe_removeH. exact Logic.I. Qed.

Lemma over_makeSet (st : state (T := T)) m : mono m -> h_over (st_heap st) <= h_over (st_heap (makeSet st m)).
Proof. intros H. rewrite makeSet_heap. apply H. Qed.
Lemma over_changeBuilder (st : state (T := T)) b m : mono m -> h_over (st_heap st) <= h_over (st_heap (changeBuilder st b m)).
Proof. intros H. specialize (H (st_heap st)). unfold changeBuilder. destruct (m (st_heap st)) as [[x| |] h']; auto. Qed.

Local Ltac mt := repeat first
  [ apply mono_ret | apply mono_alloc | apply mono_addH | apply mono_removeH | apply mono_withH | apply mono_withoutH
  | apply mono_combineH | apply mono_differenceH | apply mono_intersectionH | apply mono_whereH | apply mono_bind
  | match goal with
    | |- mono (match ?x with _ => _ end) => destruct x
    | |- forall _, _ => intro
    end ].

(** Overwritten slots are only ever added to. *)
Lemma step_over (st : state (T := T)) c : h_over (st_heap st) <= h_over (st_heap (step grow st c)).
Proof.
  destruct c as [|b v|b v|b|s v|s v|f s u|s u|s u|pred s]; cbn [step];
    repeat match goal with |- context [nth_error ?l ?i] => destruct (nth_error l i) end; auto;
    first [apply over_makeSet|apply over_changeBuilder];
    unfold bH_add, bH_remove, tH_with, tH_without, tH_combine, tH_difference, tH_intersection, tH_where, addFastH;
    repeat match goal with |- context [match pt_root ?t with _ => _ end] => destruct (pt_root t) end; mt.
Qed.
Lemma run_over cs : forall st : state (T := T), h_over (st_heap st) <= h_over (st_heap (run grow cs st)).
Proof.
  induction cs as [|c cs IH]; intros st; [apply le_n|]. change (run grow (c :: cs) st) with (run grow cs (step grow st c)).
  etransitivity; [apply step_over|apply IH].
Qed.

(** While no slot in use is overwritten, a program on the heap and the same program on values do the same. *)
Theorem related_run cs : forall st ps, related st ps -> Forall cmdOk cs -> h_over (st_heap (run grow cs st)) = h_over (st_heap st) ->
  related (run grow cs st) (prun cs ps).
Proof.
  induction cs as [|c cs IH]; intros st ps Hr Hok Hov; [exact Hr|].
  change (run grow (c :: cs) st) with (run grow cs (step grow st c)) in *. change (prun (c :: cs) ps) with (prun cs (pstep ps c)).
  inversion Hok; subst. pose proof (step_over st c). pose proof (run_over cs (step grow st c)).
  apply IH; auto; [apply related_step; auto; lia|lia].
Qed.

Lemma pstep_sets ps c i u : nth_error (ps_sets ps) i = Some u -> nth_error (ps_sets (pstep (T := T) ps c)) i = Some u.
Proof.
  intros H. assert (Ha : forall l : list tree, nth_error (ps_sets ps ++ l) i = Some u).
  { intros l. rewrite nth_error_app1; auto. eapply lt_nth; eauto. }
  destruct c; cbn [pstep]; unfold pmakeSet, pchangeBuilder;
    repeat match goal with |- context [match ?x with _ => _ end] => destruct x end; cbn [ps_sets]; auto.
Qed.
Lemma prun_sets cs : forall ps i u, nth_error (ps_sets ps) i = Some u -> nth_error (ps_sets (prun (T := T) cs ps)) i = Some u.
Proof.
  induction cs as [|c cs IH]; intros ps i u H; [exact H|]. change (prun (c :: cs) ps) with (prun cs (pstep ps c)).
  apply IH. apply pstep_sets. auto.
Qed.

Lemma step_sets_run cs : forall (st : state (T := T)) i t, nth_error (st_sets st) i = Some t ->
  nth_error (st_sets (run grow cs st)) i = Some t.
Proof.
  induction cs as [|c cs IH]; intros st i t H; [exact H|]. change (run grow (c :: cs) st) with (run grow cs (step grow st c)).
  apply IH. destruct (step_sets grow st c) as [l ->]. rewrite nth_error_app1; auto. eapply lt_nth; eauto.
Qed.

(** What a related set holds. *)
Lemma setRel_read h t u : setRel h t u -> readT treeFuel h t = Some u.
Proof. intros (H1 & H2 & H3). apply repo_read; auto using tok_shape. unfold treeFuel. lia. Qed.

Theorem run_persist st ps cs : related st ps -> Forall cmdOk cs -> h_over (st_heap (run grow cs st)) = h_over (st_heap st) ->
  forall t, In t (st_sets st) -> unchanged (st_heap st) (st_heap (run grow cs st)) t.
Proof.
  intros Hr Hok Hov t Ht. pose proof (related_run cs st ps Hr Hok Hov) as Hr'.
  apply In_nth_error in Ht as [i Hi]. destruct Hr as (_ & Hs & _), Hr' as (_ & Hs' & _).
  destruct (all2_nth _ _ _ _ _ Hs Hi) as (u & Hu & H1).
  pose proof (step_sets_run cs st i t Hi) as Hi'.
  destruct (all2_nth _ _ _ _ _ Hs' Hi') as (u' & Hu' & H2). rewrite (prun_sets cs ps i u Hu) in Hu'. inversion Hu'; subst.
  eapply repo_unchanged; [exact (proj1 H1)|exact (proj1 H2)].
Qed.

End ProgSim.
