(** * CallFacts: the calls operations make, and why a function can stand for a callback with state. *)
From Verif Require Import Base Bits Env EnvFacts Node NodeWf NodeAdd NodeRemove NodeBin NodeBin2 NodeUn Iter Tree SetApi MapApi Calls.
Local Open Scope nat_scope.
Local Opaque maxTreeDepth fanout fb.

(** ** Following calls *)
Section Sim.
Context {W : Type}.
Notation sres := (sres (W := W)).

Lemma follows_app {Q R} (cb : W -> Q -> R * W) w tr1 w1 tr2 w2 :
  follows cb w tr1 w1 -> follows cb w1 tr2 w2 -> follows cb w (tr1 ++ tr2) w2.
Proof. induction 1; simpl; auto. intros. econstructor; eauto. Qed.

Lemma agrees_app {Q R} (p : Q -> R) tr1 tr2 : agrees p (tr1 ++ tr2) <-> agrees p tr1 /\ agrees p tr2.
Proof.
  unfold agrees. split.
  - intros H. split; intros q r Hq; apply H; apply in_or_app; auto.
  - intros [H1 H2] q r Hq. apply in_app_or in Hq as [Hq|Hq]; auto.
Qed.

(** [m] makes calls of [cb]; a function giving the same answers makes [pure] end like [m]; and the calls and the outcome satisfy [post]. *)
Definition sim {Q R A} (cb : W -> Q -> R * W) (m : sres A) (pure : (Q -> R) -> res A)
    (post : list (Q * R) -> res A -> Prop) : Prop :=
  forall w, exists tr w' r,
    m w = rmap (fun a => (a, w')) r /\ follows cb w tr w' /\ (forall p, agrees p tr -> pure p = r) /\ post tr r.

Lemma sim_ret {Q R A} (cb : W -> Q -> R * W) (a : A) (post : list (Q * R) -> res A -> Prop) :
  post [] (Ok a) -> sim cb (sret a) (fun _ => Ok a) post.
Proof. intros H w. exists [], w, (Ok a). split; auto. split; [constructor|auto]. Qed.

Lemma sim_lift {Q R A} (cb : W -> Q -> R * W) (m : res A) (post : list (Q * R) -> res A -> Prop) :
  post [] m -> sim cb (slift m) (fun _ => m) post.
Proof. intros H w. exists [], w, m. split; auto. split; [constructor|auto]. Qed.

Lemma sim_call {Q R} (cb : W -> Q -> R * W) q (post : list (Q * R) -> res R -> Prop) :
  (forall w, post [(q, fst (cb w q))] (Ok (fst (cb w q)))) -> sim cb (scall cb q) (fun p => Ok (p q)) post.
Proof.
  intros H w. exists [(q, fst (cb w q))], (snd (cb w q)), (Ok (fst (cb w q))). split.
  - unfold scall. simpl. destruct (cb w q); auto.
  - split; [|split; auto].
    + econstructor; [|constructor]. destruct (cb w q); auto.
    + intros p Hp. f_equal. apply Hp. left; auto.
Qed.

Lemma sim_bind {Q R A B} (cb : W -> Q -> R * W) (m : sres A) (k : A -> sres B) pure purek P (post : list (Q * R) -> res B -> Prop) :
  sim cb m pure P ->
  (forall tr1 a, P tr1 (Ok a) -> (forall p, agrees p tr1 -> pure p = Ok a) ->
     sim cb (k a) (fun p => purek p a) (fun tr2 r => post (tr1 ++ tr2) r)) ->
  (forall tr1, P tr1 Panic -> post tr1 Panic) ->
  (forall tr1, P tr1 Fuel -> post tr1 Fuel) ->
  sim cb (sbind m k) (fun p => bind (pure p) (purek p)) post.
Proof.
  intros Hm Hk Hp Hf w. destruct (Hm w) as (tr1 & w1 & r & E1 & F1 & A1 & P1).
  destruct r as [a| |].
  - destruct (Hk tr1 a P1 A1 w1) as (tr2 & w2 & r & E2 & F2 & A2 & P2).
    exists (tr1 ++ tr2), w2, r. split; [|split; [eapply follows_app; eauto|split; auto]].
    + unfold sbind. rewrite E1. simpl. exact E2.
    + intros p Hag. apply agrees_app in Hag as [H1 H2]. rewrite A1 by auto. simpl. auto.
  - exists tr1, w1, Panic. split; [unfold sbind; rewrite E1; auto|]. split; auto. split; auto.
    intros p Hag. rewrite A1; auto.
  - exists tr1, w1, Fuel. split; [unfold sbind; rewrite E1; auto|]. split; auto. split; auto.
    intros p Hag. rewrite A1; auto.
Qed.

Lemma sim_call1 {Q R A} (cb : W -> Q -> R * W) q (k : R -> sres A) pure purek (post : list (Q * R) -> res A -> Prop) :
  (forall a, (exists w, fst (cb w q) = a) -> sim cb (k a) (purek a) (fun tr r => post ((q, a) :: tr) r)) ->
  (forall p, pure p = purek (p q) p) -> sim cb (sbind (scall cb q) k) pure post.
Proof.
  intros Hk Hp w. destruct (Hk (fst (cb w q)) (ex_intro _ w eq_refl) (snd (cb w q))) as (tr & w' & r & E1 & F1 & A1 & P1).
  exists ((q, fst (cb w q)) :: tr), w', r. split; [|split; [|split; auto]].
  - unfold sbind, scall. simpl. exact E1.
  - econstructor; eauto. destruct (cb w q); auto.
  - intros p Hag. rewrite Hp. rewrite (Hag q (fst (cb w q))) by (left; auto). apply A1. intros q' a' H. apply Hag. right; auto.
Qed.

Lemma sim_weak {Q R A} (cb : W -> Q -> R * W) (m : sres A) pure pure' (post post' : list (Q * R) -> res A -> Prop) :
  sim cb m pure post -> (forall p, pure' p = pure p) -> (forall tr r, post tr r -> post' tr r) -> sim cb m pure' post'.
Proof.
  intros Hs Hp Hpost w. destruct (Hs w) as (tr & w' & r & E1 & F1 & A1 & P1). exists tr, w', r.
  split; auto. split; auto. split; auto. intros p Hag. rewrite Hp. auto.
Qed.

Lemma sim_ext {Q R A} (cb : W -> Q -> R * W) (m m' : sres A) pure (post : list (Q * R) -> res A -> Prop) :
  (forall w, m w = m' w) -> sim cb m' pure post -> sim cb m pure post.
Proof. intros He H w. destruct (H w) as (tr & w' & r & E1 & R1). exists tr, w', r. rewrite He. auto. Qed.

Lemma sim_pure {Q R A} (cb : W -> Q -> R * W) (m : sres A) pure pure' (post : list (Q * R) -> res A -> Prop) :
  (forall p, pure' p = pure p) -> sim cb m pure post -> sim cb m pure' post.
Proof. intros H Hs. eapply sim_weak; eauto. Qed.

(** The answers of a callback. *)
Lemma follows_in {Q R} (cb : W -> Q -> R * W) w tr w' q r : follows cb w tr w' -> In (q, r) tr -> exists w0, fst (cb w0 q) = r.
Proof.
  induction 1 as [w|w q0 r0 w1 tr w2 H1 H2 IH]; [intros []|]. intros [H|H]; auto.
  inversion H; subst. exists w. rewrite H1. reflexivity.
Qed.
Lemma sim_answers {Q R A} (cb : W -> Q -> R * W) (m : sres A) pure (post : list (Q * R) -> res A -> Prop) (ok : Q -> R -> Prop) :
  (forall w q, ok q (fst (cb w q))) -> sim cb m pure post ->
  sim cb m pure (fun tr r => post tr r /\ forall q a, In (q, a) tr -> ok q a).
Proof.
  intros Hok Hs w. destruct (Hs w) as (tr & w' & r & E1 & F1 & A1 & P1). exists tr, w', r.
  repeat (split; auto). intros q a Hq. destruct (follows_in _ _ _ _ _ _ F1 Hq) as (w0 & <-). auto.
Qed.

(** Calls passed on with another question and another answer. *)
Lemma sim_conv {Q R Q' R' A} (cb : W -> Q -> R * W) (cb' : W -> Q' -> R' * W) (c : Q' -> Q) (g : Q' -> R -> R')
    (m : sres A) pure (post : list (Q' * R') -> res A -> Prop) :
  (forall w q, cb' w q = (g q (fst (cb w (c q))), snd (cb w (c q)))) ->
  sim cb' m pure post ->
  sim cb m (fun p => pure (fun q => g q (p (c q))))
    (fun tr r => exists l : list (Q' * R), tr = map (fun x => (c (fst x), snd x)) l /\ post (map (fun x => (fst x, g (fst x) (snd x))) l) r).
Proof.
  intros Hcb Hs w. destruct (Hs w) as (tr & w' & r & E1 & F1 & A1 & P1).
  assert (H : exists l, tr = map (fun x => (fst x, g (fst x) (snd x))) l /\ follows cb w (map (fun x => (c (fst x), snd x)) l) w').
  { clear - F1 Hcb. induction F1 as [w|w q r w1 tr w2 H1 H2 IH].
    - exists []. split; auto. constructor.
    - destruct IH as (l & -> & Hl). rewrite Hcb in H1. inversion H1; subst.
      exists ((q, fst (cb w (c q))) :: l). split; auto. simpl. econstructor; [|exact Hl]. destruct (cb w (c q)); auto. }
  destruct H as (l & -> & Hl). exists (map (fun x => (c (fst x), snd x)) l), w', r.
  split; auto. split; auto. split; [|eauto].
  intros p Hag. apply A1. intros q a Hq. apply in_map_iff in Hq as ((q0 & r0) & H & Hin). simpl in H. inversion H; subst.
  f_equal. apply Hag. apply in_map_iff. exists (q, r0). auto.
Qed.

(** The loop of Gauge.Parallel. *)
Lemma sim_par {Q R P} (cb : W -> Q -> R * W) (fS : nat -> P -> sres (Z * P)) (f : (Q -> R) -> nat -> P -> res (bool * Z * P)) (h : (Q -> R) -> nat -> P -> res (Z * P))
    (I : list nat -> list (Q * R) -> P -> Prop) (J : list (Q * R) -> res unit -> Prop) order :
  (forall p i x, In i order -> f p i x = rmap (fun mx => (true, fst mx, snd mx)) (h p i x)) ->
  (forall dn rest i x tr, order = dn ++ i :: rest -> I dn tr x ->
     sim cb (fS i x) (fun p => h p i x)
       (fun tr2 r => match r with Ok mx => I (dn ++ [i]) (tr ++ tr2) (snd mx) | Panic => J (tr ++ tr2) Panic | Fuel => J (tr ++ tr2) Fuel end)) ->
  forall x acc, I [] [] x ->
  sim cb (spar_loop fS order acc x) (fun p => rmap (fun y => (snd (fst y), snd y)) (par_loop (f p) order acc x))
    (fun tr r => match r with Ok mx => I order tr (snd mx) | Panic => J tr Panic | Fuel => J tr Fuel end).
Proof.
  intros Hf Hstep.
  enough (H : forall rest dn tr x acc, order = dn ++ rest -> I dn tr x ->
    sim cb (spar_loop fS rest acc x) (fun p => rmap (fun y => (snd (fst y), snd y)) (par_loop (f p) rest acc x))
      (fun tr2 r => match r with Ok mx => I order (tr ++ tr2) (snd mx) | Panic => J (tr ++ tr2) Panic | Fuel => J (tr ++ tr2) Fuel end)).
  { intros x acc HI. apply (H order [] []); auto. }
  induction rest as [|i rest IH]; intros dn tr x acc Ho HI.
  - simpl. apply sim_ret. rewrite app_nil_r in *. subst; auto.
  - cbn [spar_loop par_loop].
    apply sim_pure with (pure := fun p => bind (h p i x) (fun mx => rmap (fun y => (snd (fst y), snd y)) (par_loop (f p) rest (acc + fst mx)%Z (snd mx))));
      [|eapply sim_bind].
    + intros p. rewrite Hf by (rewrite Ho; apply in_or_app; right; left; auto).
      destruct (h p i x) as [[m x']| |]; reflexivity.
    + apply (Hstep dn rest i x tr); auto.
    + intros tr1 [m x'] H1 _. simpl in *.
      eapply sim_weak; [apply (IH (dn ++ [i]) (tr ++ tr1)); [rewrite <- app_assoc; auto|auto]| |].
      * intros p; reflexivity.
      * intros tr2 r H2. destruct r; simpl in *; rewrite app_assoc; exact H2.
    + intros tr1 H1. auto.
    + intros tr1 H1. auto.
Qed.

(** The questions are [l], in this order; if the operation fails, a first part of it. *)
Definition asked {Q R A} (l : list Q) (tr : list (Q * R)) (r : res A) : Prop :=
  exists rest, l = map fst tr ++ rest /\ forall x, r = Ok x -> rest = [].
Lemma asked_ok {Q R A} (l : list Q) (tr : list (Q * R)) (x : A) : asked l tr (Ok x) -> map fst tr = l.
Proof. intros (rest & -> & H). rewrite (H x eq_refl), app_nil_r. reflexivity. Qed.
Lemma asked_done {Q R A B} (l : list Q) (tr : list (Q * R)) (x : A) (r : res B) : asked l tr (Ok x) -> asked l (tr ++ []) r.
Proof. intros H. apply asked_ok in H. exists []. rewrite !app_nil_r. auto. Qed.
Lemma asked_panic {Q R A B} (l : list Q) (tr : list (Q * R)) : asked (A := A) l tr Panic -> asked (A := B) l tr Panic.
Proof. intros (rest & -> & H). exists rest. split; auto. discriminate. Qed.
Lemma asked_fuel {Q R A B} (l : list Q) (tr : list (Q * R)) : asked (A := A) l tr Fuel -> asked (A := B) l tr Fuel.
Proof. intros (rest & -> & H). exists rest. split; auto. discriminate. Qed.


(** A loop over a list. *)
Lemma sim_foldG {Q R A B} (cb : W -> Q -> R * W) (fS : B -> A -> sres B) (h : (Q -> R) -> B -> A -> res B) (g : A -> list Q) l :
  (forall b q, In q l -> sim cb (fS b q) (fun p => h p b q) (asked (g q))) ->
  forall b, sim cb (sfold fS b l) (fun p => foldM (h p) b l) (asked (flat_map g l)).
Proof.
  induction l as [|q l IH]; intros Hf b; cbn [sfold foldM].
  - apply sim_ret. exists []. auto.
  - eapply sim_bind with (P := asked (g q)).
    + apply Hf. left; auto.
    + intros tr1 b1 H1 _. apply asked_ok in H1. eapply sim_weak; [apply IH; intros; apply Hf; right; auto| |].
      * auto.
      * intros tr2 r (rest & H2 & H3). exists rest. simpl flat_map. rewrite H2, map_app, H1, app_assoc. auto.
    + intros tr1 (rest & H2 & _). exists (rest ++ flat_map g l). simpl flat_map. rewrite H2, app_assoc. split; auto. discriminate.
    + intros tr1 (rest & H2 & _). exists (rest ++ flat_map g l). simpl flat_map. rewrite H2, app_assoc. split; auto. discriminate.
Qed.

(** A loop over a list that calls the callback once for each element. *)
Lemma sim_fold {Q R B} (cb : W -> Q -> R * W) (fS : B -> Q -> sres B) (h : R -> B -> Q -> res B) l :
  (forall b q w, fS b q w = (a <s scall cb q ;; slift (h a b q)) w) ->
  forall b, sim cb (sfold fS b l) (fun p => foldM (fun b q => h (p q) b q) b l) (asked l).
Proof.
  intros Hf b. eapply sim_weak; [apply (sim_foldG cb fS (fun p b q => h (p q) b q) (fun q => [q]))| |].
  - clear b. intros b q _. eapply sim_ext; [apply Hf|]. apply sim_call1 with (purek := fun a _ => h a b q); [|auto].
    intros a _. apply sim_lift. exists []. auto.
  - auto.
  - replace (flat_map (fun q => [q]) l) with l; [auto|]. clear. induction l; simpl; congruence.
Qed.
End Sim.

Section NodeCalls.
Context {E : Env} {T : Type} {K : Key T} {vok : T -> Prop} {KO : KeyOk K vok} {W : Type}.
Notation node := (node T).
Notation wf := (wf vok).
Notation allok := (allok vok).
Notation sres := (sres (W := W)).

(** ** Where *)

(** The answers of a list of calls as a function. *)
Definition ansP (tr : list (T * bool)) (e : T) : bool :=
  match find (fun x => veq (fst x) e) tr with Some x => snd x | None => false end.
Lemma ansP_agrees tr : distinct (map fst tr) -> allok (map fst tr) -> agrees (ansP tr) tr.
Proof.
  intros Hd Hok q r Hin. unfold ansP. induction tr as [|[q0 r0] tr IH]; [destruct Hin|].
  simpl in *. inversion Hd as [|? ? H1 H2]; subst. destruct Hin as [H|Hin].
  - inversion H; subst. rewrite veq_refl by (apply Hok; left; auto). reflexivity.
  - rewrite H1 by (apply in_map_iff; exists (q, r); auto). apply IH; auto. eapply allok_tl; eauto.
Qed.
Lemma ansP_perm tr l : distinct l -> allok l -> Permutation (map fst tr) l -> agrees (ansP tr) tr.
Proof.
  intros Hd Hok HP. apply ansP_agrees.
  - eapply distinct_perm; [exact Hok|symmetry; exact HP|exact Hd].
  - intros e He. apply Hok. eapply Permutation_in; eauto.
Qed.

Lemma sfilter_sim (pred : W -> T -> bool * W) l :
  sim pred (sfilter pred l) (fun p => Ok (filter p l)) (fun tr r => map fst tr = l /\ exists a, r = Ok a).
Proof.
  induction l as [|e l IH]; simpl.
  - apply sim_ret. eauto.
  - apply sim_call1 with (purek := fun b p => bind (Ok (filter p l)) (fun r => Ok (if b : bool then e :: r else r))).
    + intros b _. eapply sim_bind; [exact IH| | |].
      * intros tr1 a [H1 _] _. apply sim_ret. rewrite app_nil_r. simpl. rewrite H1. eauto.
      * intros tr1 [_ [a Ha]]. discriminate.
      * intros tr1 [_ [a Ha]]. discriminate.
    + intros p. reflexivity.
Qed.

Lemma flat_map_order {A} (f : option node -> list A) g d data :
  length data = fanout -> gaugeOk g -> f None = [] ->
  Permutation (flat_map (fun i => f (child data i)) (par_order g d (updateMask data))) (flat_map f data).
Proof.
  intros Hl Hg Hn. rewrite <- flat_map_mask by auto. apply Permutation_flat_map. apply par_order_perm; auto.
Qed.

Lemma whereS_sim fuel : forall g d (pred : W -> T -> bool * W) n,
  wf d n -> gaugeOk g -> fuelBin d <= fuel ->
  sim pred (whereS fuel g pred n d) (fun p => where_ fuel g p n d)
    (fun tr r => Permutation (map fst tr) (elems n) /\ exists a, r = Ok a).
Proof.
  induction fuel as [|fuel IH]; intros g d pred n Hwf Hg Hf; [unfold fuelBin in Hf; lia|].
  enough (Hs : sim pred (whereS (S fuel) g pred n d) (fun p => where_ (S fuel) g p n d)
    (fun tr _ => Permutation (map fst tr) (elems n))).
  { intros w. destruct (Hs w) as (tr & w' & r & E1 & F1 & A1 & P1). exists tr, w', r.
    repeat (split; auto).
    destruct (where_wf (vok := vok) (S fuel) g d (ansP tr) n) as (o & Eo & _); auto.
    rewrite A1 in Eo; [eauto|]. apply ansP_perm with (l := elems n); auto.
    - eapply wf_distinct; eauto.
    - eapply wf_allok; eauto. }
  destruct n as [a|a b|l|m1 d1]; cbn [whereS where_].
  - apply sim_call1 with (purek := fun x _ => if x : bool then Ok (Some (Leaf1 a), 1%Z) else Ok (None, 0%Z)).
    + intros x _. destruct x; apply sim_ret; simpl; auto.
    + auto.
  - apply sim_call1 with (purek := fun x p => match x, p b with
      | true, true => Ok (Some (Leaf2 a b), 2%Z) | true, false => Ok (Some (Leaf1 a), 1%Z)
      | false, true => Ok (Some (Leaf1 b), 1%Z) | false, false => Ok (None, 0%Z) end); [|auto].
    intros x _. apply sim_call1 with (purek := fun y _ => match x, y with
      | true, true => Ok (Some (Leaf2 a b), 2%Z) | true, false => Ok (Some (Leaf1 a), 1%Z)
      | false, true => Ok (Some (Leaf1 b), 1%Z) | false, false => Ok (None, 0%Z) end); [|auto].
    intros y _. destruct x, y; apply sim_ret; simpl; auto.
  - apply sim_pure with (pure := fun p => bind (Ok (filter p l)) (fun l' => bind (canonicalTwig fuel d l') (fun o => Ok (o, Z.of_nat (length l'))))); [auto|].
    eapply sim_bind; [apply sfilter_sim| | |].
    + intros tr1 l' [H1 _] _. eapply sim_bind with (P := fun tr _ => tr = []); [apply sim_lift; auto| | |].
      * intros tr2 o -> _. apply sim_ret. rewrite !app_nil_r, H1. auto.
      * intros tr2 ->. rewrite app_nil_r, H1. auto.
      * intros tr2 ->. rewrite app_nil_r, H1. auto.
    + intros tr1 [_ [a Ha]]. discriminate.
    + intros tr1 [_ [a Ha]]. discriminate.
  - inversion Hwf as [| | |d' m' data' Hd Hlen1 Hm1 Hch1 Hp1 Hl1]; subst d' m' data'.
    unfold parallel. set (order := par_order g d m1).
    set (f := fun p i (nodes : packer T) =>
               match child d1 i with
               | None => Panic
               | Some x => '(r, m) <- where_ fuel (g_sub i g) p x (S d) ;; Ok (true, m, (fst nodes, set_nth (snd nodes) i r))
               end).
    apply sim_pure with (pure := fun p =>
      bind (rmap (fun y => (snd (fst y), snd y)) (par_loop (f p) order 0%Z emptyPacker))
        (fun mn => bind (canonical fuel d (Branch (updateMask (snd (snd mn))) (snd (snd mn)))) (fun o => Ok (o, fst mn)))).
    { intros p. fold (f p). destruct (par_loop _ _ _ _) as [[[ok m] nodes]| |]; reflexivity. }
    assert (HP : Permutation (flat_map (fun i => elemso (child d1 i)) order) (elems (Branch m1 d1))).
    { rewrite elems_branch. unfold order. rewrite Hm1. apply flat_map_order; auto. }
    eapply sim_bind with (P := fun tr r => Permutation (map fst tr) (elems (Branch m1 d1)) /\ exists a, r = Ok a).
    + eapply sim_weak.
      { eapply (sim_par pred) with (f := f)
          (h := fun p i (nodes : packer T) => match child d1 i with
               | None => Panic
               | Some x => '(r, m) <- where_ fuel (g_sub i g) p x (S d) ;; Ok (m, (fst nodes, set_nth (snd nodes) i r))
               end)
          (I := fun dn tr _ => Permutation (map fst tr) (flat_map (fun i => elemso (child d1 i)) dn)) (J := fun _ _ => False).
        - intros p i x Hi. unfold f. destruct (child d1 i) as [c|]; auto. destruct (where_ _ _ _ _ _) as [[r m]| |]; reflexivity.
        - intros dn rest i x tr Ho HI. destruct (child d1 i) as [c|] eqn:Ec.
          + eapply sim_bind.
            * apply IH; eauto; [apply gaugeOk_sub; auto|unfold fuelBin in *; lia].
            * intros tr1 [r m] [H1 _] _. apply sim_ret. rewrite app_nil_r, map_app, flat_map_app. simpl.
              rewrite app_nil_r, Ec. simpl. apply Permutation_app; auto.
            * intros tr1 [_ [y Hy]]. discriminate.
            * intros tr1 [_ [y Hy]]. discriminate.
          + exfalso. assert (Hi : In i (mask_indices m1)).
            { eapply Permutation_in; [apply (par_order_perm g d); auto|]. fold order. rewrite Ho. apply in_or_app; right; left; auto. }
            rewrite Hm1 in Hi. apply mask_indices_updateMask in Hi as (x0 & Ex); auto. congruence.
        - simpl. auto. }
      { auto. }
      { intros tr r H. destruct r as [mx| |]; try contradiction. split; [|eauto]. rewrite H. exact HP. }
    + intros tr1 [m nodes] [H1 _] _. simpl.
      eapply sim_bind with (P := fun tr _ => tr = []); [apply sim_lift; auto| | |].
      * intros tr2 o -> _. apply sim_ret. rewrite !app_nil_r. auto.
      * intros tr2 ->. rewrite app_nil_r. auto.
      * intros tr2 ->. rewrite app_nil_r. auto.
    + intros tr1 [_ [y Hy]]. discriminate.
    + intros tr1 [_ [y Hy]]. discriminate.
Qed.
(** ** Reduce *)

Lemma perm_reduce {A} (c h x tr s : list A) (r : A) :
  Permutation (c ++ h) (x ++ tr) -> Permutation ((c ++ h) ++ [r]) (x ++ tr ++ [r]).
Proof. intros H. rewrite app_assoc. apply Permutation_app_tail; auto. Qed.

Lemma nth_set_other {A} (s : list (option A)) i j o : i <> j -> nth j (set_nth s i o) None = nth j s None.
Proof. intros H. apply nth_set_nth_ne. auto. Qed.

(** The results collected so far and the calls made. *)
Definition redInv (d1 : list (option node)) (dn : list nat) (tr : list (list T * T)) (results : list (option T)) : Prop :=
  length results = fanout /\ (forall q a, In (q, a) tr -> q <> []) /\
  exists h : list (nat * T), map fst h = dn /\ (forall i t, In (i, t) h -> nth i results None = Some t) /\
    Permutation (concat (map fst tr) ++ map snd h) (flat_map (fun i => elemso (child d1 i)) dn ++ map snd tr).

Lemma collect_spec (results : list (option T)) (h : list (nat * T)) mask :
  Permutation (map fst h) (mask_indices mask) -> (forall i t, In (i, t) h -> nth i results None = Some t) ->
  exists l, collect results mask = Ok l /\ Permutation l (map snd h).
Proof.
  intros HP Hn. unfold collect.
  assert (H : forall order acc h', map fst h' = order -> incl h' h ->
    foldM (fun acc i => match nth i results None with Some t => Ok (acc ++ [t]) | None => Panic end) acc order = Ok (acc ++ map snd h')).
  { induction order as [|i order IH]; intros acc h' E1 Hi; destruct h' as [|[j t] h']; try discriminate; simpl.
    - rewrite app_nil_r; auto.
    - simpl in E1. inversion E1; subst. rewrite (Hn i t) by (apply Hi; left; auto). simpl.
      rewrite (IH _ h') by (auto; intros y Hy; apply Hi; right; auto). rewrite <- app_assoc. reflexivity. }
  destruct (Permutation_map_inv fst h (Permutation_sym HP)) as (h' & E1 & HP').
  exists (map snd h'). split.
  - rewrite (H (mask_indices mask) [] h'); auto. intros y Hy. eapply Permutation_in; [symmetry|]; eauto.
  - apply Permutation_map. symmetry; auto.
Qed.

Lemma reduceS_sim fuel : forall g d (r : W -> list T -> T * W) n,
  wf d n -> gaugeOk g -> maxTreeDepth - d < fuel ->
  sim r (reduceS fuel g r n d) (fun p => reduce fuel g p n d)
    (fun tr o => (forall q a, In (q, a) tr -> q <> []) /\
       exists t, o = Ok t /\ Permutation (concat (map fst tr) ++ [t]) (elems n ++ map snd tr) /\ exists tr' q, tr = tr' ++ [(q, t)]).
Proof.
  induction fuel as [|fuel IH]; intros g d r n Hwf Hg Hf; [lia|].
  assert (Hone : forall l : list T, l <> [] -> sim r (scall r l) (fun p => Ok (p l)) (fun tr o => (forall q a, In (q, a) tr -> q <> []) /\
       exists t, o = Ok t /\ Permutation (concat (map fst tr) ++ [t]) (l ++ map snd tr) /\ exists tr' q, tr = tr' ++ [(q, t)])).
  { intros l Hl. apply sim_call. intros w. split.
    - intros q a [H|[]]. inversion H; subst; auto.
    - eexists. split; [reflexivity|]. simpl. rewrite app_nil_r. split; auto. exists [], l. reflexivity. }
  destruct n as [a|a b|l|m1 d1]; cbn [reduceS reduce]; try (cbn [elems]; apply Hone; discriminate).
  - cbn [elems]. apply Hone. inversion Hwf; subst. destruct l; [simpl in *; lia|discriminate].
  - inversion Hwf as [| | |d' m' data' Hd Hlen1 Hm1 Hch1 Hp1 Hl1]; subst d' m' data'.
    unfold parallel. set (order := par_order g d m1).
    set (f := fun p i (results : list (option T)) =>
               match child d1 i with
               | None => Panic
               | Some x => t <- reduce fuel (g_sub i g) p x (S d) ;; Ok (true, 0%Z, set_nth results i (Some t))
               end).
    apply sim_pure with (pure := fun p =>
      bind (rmap (fun y => (snd (fst y), snd y)) (par_loop (f p) order 0%Z (repeat None fanout)))
        (fun mn => bind (collect (snd mn) m1) (fun l => Ok (p l)))).
    { intros p. fold (f p). destruct (par_loop _ _ _ _) as [[[ok m] nodes]| |]; reflexivity. }
    assert (HPo : Permutation order (mask_indices m1)) by (apply par_order_perm; auto).
    assert (HP : Permutation (flat_map (fun i => elemso (child d1 i)) order) (elems (Branch m1 d1))).
    { rewrite elems_branch. unfold order. rewrite Hm1. apply flat_map_order; auto. }
    assert (Hnd : NoDup order).
    { eapply Permutation_NoDup; [symmetry; exact HPo|]. apply mask_indices_NoDup. rewrite Hm1. apply updateMask_lt. }
    assert (Hin : forall i, In i order -> exists x, child d1 i = Some x).
    { intros i Hi. apply mask_indices_updateMask; auto. rewrite <- Hm1. eapply Permutation_in; eauto. }
    eapply sim_bind with (P := fun tr r => match r with Ok mx => redInv d1 order tr (snd mx) | _ => False end).
    + eapply sim_weak.
      { eapply (sim_par r) with (f := f)
          (h := fun p i (results : list (option T)) => match child d1 i with
               | None => Panic
               | Some x => t <- reduce fuel (g_sub i g) p x (S d) ;; Ok (0%Z, set_nth results i (Some t))
               end)
          (I := redInv d1) (J := fun _ _ => False).
        - intros p i x Hi. unfold f. destruct (child d1 i) as [c|]; auto. destruct (reduce _ _ _ _ _) as [t| |]; reflexivity.
        - intros dn rest i x tr Ho (HL & HN & h & HI1 & HI2 & HI3).
          destruct (Hin i) as (c & Ec); [rewrite Ho; apply in_or_app; right; left; auto|]. rewrite Ec.
          eapply sim_bind.
          + apply IH; eauto; [apply gaugeOk_sub; auto|lia].
          + intros tr1 t (H0 & t' & H1 & H2 & _) _. inversion H1; subst t'. apply sim_ret. rewrite app_nil_r. simpl. split; [|split].
            * rewrite set_nth_length. auto.
            * intros q a Hq. apply in_app_or in Hq as [Hq|Hq]; eauto.
            * exists (h ++ [(i, t)]). split; [rewrite map_app, HI1; auto|]. split.
              -- intros j u Hj. apply in_app_or in Hj as [Hj|[Hj|[]]].
                 ++ rewrite nth_set_other; auto. intros ->. rewrite Ho in Hnd. apply NoDup_remove_2 in Hnd. apply Hnd.
                    apply in_or_app. left. rewrite <- HI1. apply in_map_iff. exists (j, u). auto.
                 ++ inversion Hj; subst. apply nth_set_nth_eq. rewrite HL.
                    destruct (Nat.lt_ge_cases j fanout); auto. rewrite child_overflow in Ec by lia. discriminate.
              -- rewrite !map_app, concat_app, flat_map_app. simpl. rewrite Ec, app_nil_r. simpl.
                 clear - HI3 H2. rewrite (Permutation_app_comm (flat_map _ _)), <- !app_assoc.
                 rewrite (app_assoc _ (flat_map _ _)).
                 transitivity ((concat (map fst tr) ++ map snd h) ++ (concat (map fst tr1) ++ [t])).
                 { rewrite <- !app_assoc. apply Permutation_app_head. rewrite !app_assoc. apply Permutation_app_tail. apply Permutation_app_comm. }
                 rewrite HI3, H2. rewrite (Permutation_app_comm (elems c) (map snd tr1)), <- !app_assoc.
                 rewrite (Permutation_app_comm (elems c)), <- !app_assoc.
                 rewrite (Permutation_app_comm (flat_map _ dn)), <- !app_assoc.
                 apply Permutation_app_head. apply Permutation_app_head.
                 rewrite (Permutation_app_comm (elems c)). auto.
          + intros tr1 (_ & t' & H1 & _). discriminate.
          + intros tr1 (_ & t' & H1 & _). discriminate.
        - split; [apply repeat_length|]. split; [intros q a []|]. exists []. simpl. split; [auto|]. split; [intros i t []|auto]. }
      { auto. }
      { intros tr o H. destruct o as [mx| |]; try contradiction. exact H. }
    + intros tr1 [m results] (HL & HN & h & HI1 & HI2 & HI3) _. simpl snd in *.
      destruct (collect_spec results h m1) as (l & El & Pl); auto.
      { rewrite HI1. auto. }
      eapply sim_bind with (P := fun tr o => tr = [] /\ o = Ok l); [apply sim_lift; auto| | |].
      * intros tr2 l' [-> Hl'] _. inversion Hl'; subst l'. apply sim_call. intros w. cbn [app].
        assert (Hne : l <> []).
        { intros ->. apply Permutation_nil in Pl. destruct h; [|discriminate]. simpl in HI1.
          assert (Hz : elems (Branch m1 d1) = []) by (apply Permutation_nil; rewrite <- HP, <- HI1; auto).
          rewrite Hz in Hl1. simpl in Hl1. lia. }
        split.
        -- intros q a Hq. apply in_app_or in Hq as [Hq|[Hq|[]]]; eauto. inversion Hq; subst. auto.
        -- eexists. split; [reflexivity|]. split; [|eexists _, _; reflexivity]. rewrite !map_app, concat_app. cbn [map concat fst snd]. rewrite app_nil_r.
           rewrite app_assoc. apply Permutation_app_tail.
           etransitivity; [apply Permutation_app_head; exact Pl|]. etransitivity; [exact HI3|].
           apply Permutation_app_tail. exact HP.
      * intros tr2 [_ H]. discriminate.
      * intros tr2 [_ H]. discriminate.
    + intros tr1 [].
    + intros tr1 [].
Qed.
(** ** Combine *)

(** No pair is asked about twice, and only equal elements of the two lists are. *)
Definition callsIn (l1 l2 : list T) (tr : list (T * T * T)) : Prop :=
  NoDup (map fst tr) /\ forall a b, In (a, b) (map fst tr) -> In a l1 /\ In b l2 /\ veq a b = true.
(** If the operation ends, every equal pair has been asked about. *)
Definition callsPost {A} (l1 l2 : list T) (tr : list (T * T * T)) (r : res A) : Prop :=
  callsIn l1 l2 tr /\ forall x, r = Ok x -> forall a b, In a l1 -> In b l2 -> veq a b = true -> In (a, b) (map fst tr).

(** The answer to a pair of equal elements is equal to them. *)
Definition cbOk (f : W -> T * T -> T * W) : Prop :=
  forall w a b, vok a -> vok b -> veq a b = true -> vok (fst (f w (a, b))) /\ veq (fst (f w (a, b))) b = true.
Definition ansOk (q : T * T) (r : T) : Prop :=
  vok (fst q) -> vok (snd q) -> veq (fst q) (snd q) = true -> vok r /\ veq r (snd q) = true.

(** The answers of a list of calls as a function. *)
Definition ansC (tr : list (T * T * T)) (q : T * T) : T :=
  match find (fun x => veq (fst (fst x)) (fst q) && veq (snd (fst x)) (snd q))%bool tr with Some x => snd x | None => snd q end.

Lemma distinct_eq l a b : distinct l -> allok l -> In a l -> In b l -> veq a b = true -> a = b.
Proof.
  intros Hd Hok Ha Hb Hq. pose proof (lookup_In l b Hd Hok Hb) as H1.
  assert (H2 : lookup l b = Some a) by (apply lookup_iff; auto). congruence.
Qed.

Lemma ansC_agrees l1 l2 tr : distinct l1 -> allok l1 -> distinct l2 -> allok l2 -> callsIn l1 l2 tr -> agrees (ansC tr) tr.
Proof.
  intros Hd1 Hok1 Hd2 Hok2 [Hn Hin] [a b] r Hq. unfold ansC. simpl.
  assert (Hab : In (a, b) (map fst tr)) by (apply in_map_iff; exists (a, b, r); auto).
  pose proof (Hin _ _ Hab) as (Ha & Hb & _).
  destruct (find _ tr) as [[[a' b'] r']|] eqn:Ef.
  - apply find_some in Ef as [Hx Hq']. simpl in *. apply andb_prop in Hq' as [Hqa Hqb].
    assert (Hab' : In (a', b') (map fst tr)) by (apply in_map_iff; exists (a', b', r'); auto).
    pose proof (Hin _ _ Hab') as (Ha' & Hb' & _).
    assert (a' = a) by (apply (distinct_eq l1); auto). assert (b' = b) by (apply (distinct_eq l2); auto). subst.
    clear - Hn Hq Hx. induction tr as [|[q0 r0] tr IH]; [destruct Hx|]. simpl in *. inversion Hn as [|? ? H1 H2]; subst.
    destruct Hx as [Hx|Hx], Hq as [Hq|Hq].
    + congruence.
    + inversion Hx; subst. exfalso. apply H1. apply in_map_iff. exists (a, b, r). auto.
    + inversion Hq; subst. exfalso. apply H1. apply in_map_iff. exists (a, b, r'). auto.
    + auto.
  - exfalso. eapply find_none in Ef; [|exact Hq]. simpl in Ef. rewrite !veq_refl in Ef by auto. discriminate.
Qed.

Lemma ansC_ok l1 l2 tr : allok l1 -> allok l2 -> callsIn l1 l2 tr -> (forall q r, In (q, r) tr -> ansOk q r) ->
  cfok (vok := vok) (fun a b => ansC tr (a, b)).
Proof.
  intros Hok1 Hok2 [Hn Hin] Hans a b Ha Hb Hab. unfold ansC. simpl.
  destruct (find _ tr) as [[[a' b'] r']|] eqn:Ef; simpl.
  - apply find_some in Ef as [Hx Hq']. simpl in *. apply andb_prop in Hq' as [Hqa Hqb].
    assert (Hab' : In (a', b') (map fst tr)) by (apply in_map_iff; exists (a', b', r'); auto).
    pose proof (Hin _ _ Hab') as (Ha' & Hb' & Hq2).
    destruct (Hans _ _ Hx) as [H1 H2]; simpl; auto. simpl in H2. split; auto.
    apply (veq_trans r' b' b); auto.
  - split; auto. apply veq_refl; auto.
Qed.

Lemma callsIn_incl l1 l2 l1' l2' tr : incl l1 l1' -> incl l2 l2' -> callsIn l1 l2 tr -> callsIn l1' l2' tr.
Proof. intros H1 H2 [Hn H]. split; auto. intros a b Hab. apply H in Hab as (Ha & Hb & Hq). auto. Qed.

Lemma callsPost_mono {A B} l1 l2 l1' l2' tr (r : res A) (r' : res B) :
  incl l1 l1' -> incl l2 l2' -> (forall a b, In a l1' -> In b l2' -> veq a b = true -> In a l1 /\ In b l2) ->
  (forall x, r' = Ok x -> exists y, r = Ok y) -> callsPost l1 l2 tr r -> callsPost l1' l2' tr r'.
Proof.
  intros H1 H2 H3 H4 [H5 H6]. split; [eapply callsIn_incl; eauto|].
  intros x Hx a b Ha Hb Hab. destruct (H4 x Hx) as (y & Hy). destruct (H3 a b Ha Hb Hab). eapply H6; eauto.
Qed.

Lemma callsIn_nil l1 l2 : callsIn l1 l2 [].
Proof. split; [constructor|intros a b []]. Qed.
Lemma callsPost_nil {A} l1 l2 (r : res A) : (forall a b, In a l1 -> In b l2 -> veq a b = false) -> callsPost l1 l2 [] r.
Proof. intros H. split; [apply callsIn_nil|]. intros x _ a b Ha Hb Hab. rewrite H in Hab by auto. discriminate. Qed.
Lemma callsPost_one {A} l1 l2 (r : res A) a b c : In a l1 -> In b l2 -> veq a b = true ->
  (forall a' b', In a' l1 -> In b' l2 -> veq a' b' = true -> a' = a /\ b' = b) -> callsPost l1 l2 [(a, b, c)] r.
Proof.
  intros Ha Hb Hab H. split; [split|].
  - simpl. repeat constructor. intros [].
  - intros a' b' [E1|[]]. inversion E1; subst. auto.
  - intros x _ a' b' Ha' Hb' Hab'. destruct (H a' b') as [-> ->]; auto. left. reflexivity.
Qed.

Lemma cbOk_flip f : cbOk f -> cbOk (sflip f).
Proof.
  intros H w a b Ha Hb Hab. unfold sflip. simpl. destruct (H w b a) as [H1 H2]; auto.
  - apply veq_sym; auto.
  - split; auto. apply (veq_trans _ a b); auto.
Qed.

(** The combining function of a function on pairs. *)
Definition cargs (g : gauge) (p : T * T -> T) : CombineArgs T := mkCombineArgs g veq (fun a b => p (a, b)).

Lemma replaceFirstS_sim (f : W -> T * T -> T * W) l v : allok l -> distinct l -> vok v ->
  sim f (replaceFirstS veq f l v) (fun p => Ok (replaceFirst (fun e => veq e v) (fun e => p (e, v)) l)) (callsPost l [v]).
Proof.
  intros Hok Hd Hv. induction l as [|e l IH]; simpl.
  - apply sim_ret. apply callsPost_nil. intros a b [].
  - inversion Hd as [|? ? H1 H2]; subst. destruct (veq e v) eqn:Ev.
    + apply sim_call1 with (purek := fun r _ => Ok (Some (r :: l))); [|auto].
      intros r _. apply sim_ret. apply callsPost_one; simpl; auto.
      intros a b [<-|Ha] [<-|[]] Hab; auto. exfalso.
      assert (veq e a = true); [|rewrite H1 in *; auto; discriminate].
      apply (veq_trans e v a); auto; try (apply Hok; simpl; auto). apply veq_sym; auto. apply Hok; right; auto.
    + apply sim_pure with (pure := fun p => bind (Ok (replaceFirst (fun e => veq e v) (fun e => p (e, v)) l)) (fun o => Ok (option_map (cons e) o))).
      { intros p. simpl. destruct (replaceFirst _ _ l); reflexivity. }
      eapply sim_bind; [apply IH; auto; eapply allok_tl; eauto| | |].
      * intros tr1 o Hp _. apply sim_ret. rewrite app_nil_r. eapply callsPost_mono with (5 := Hp).
        -- intros y Hy; right; auto.
        -- apply incl_refl.
        -- intros a b [<-|Ha] [<-|[]] Hab; [congruence|simpl; auto].
        -- eauto.
      * intros tr1 [H3 _]. split; [eapply callsIn_incl; [..|exact H3]; [intros y Hy; right; auto|apply incl_refl]|discriminate].
      * intros tr1 [H3 _]. split; [eapply callsIn_incl; [..|exact H3]; [intros y Hy; right; auto|apply incl_refl]|discriminate].
Qed.

Lemma sim_lift_map {Q R A B} (cb : W -> Q -> R * W) (m : res A) (k : A -> B) (post : list (Q * R) -> res B -> Prop) :
  (forall r, post [] r) -> sim cb (x <s slift m ;; sret (k x)) (fun _ => x <- m ;; Ok (k x)) post.
Proof.
  intros H. eapply sim_bind with (P := fun tr _ => tr = []); [apply sim_lift; auto| | |].
  - intros tr a -> _. apply sim_ret. apply H.
  - intros tr ->. apply H.
  - intros tr ->. apply H.
Qed.

Lemma withS_sim fuel : forall g d (f : W -> T * T -> T * W) n v,
  wf d n -> vok v ->
  sim f (withS fuel veq f n v d (newHasher v d)) (fun p => with_ fuel (cargs g p) n v d (newHasher v d)) (callsPost (elems n) [v]).
Proof.
  induction fuel as [|fuel IH]; intros g d f n v Hwf Hv.
  - cbn [withS with_]. apply sim_lift. split; [apply callsIn_nil|discriminate].
  - inversion Hwf as [d' a Hd Ha|d' a b Hd Ha Hb Hab|d' l Hd Hl Hok Hdis|d' mk data Hd Hlen Hm Hch Hp Hl]; subst d' n; cbn [withS with_ c_eq c_f cargs].
    + cbn [elems]. destruct (veq a v) eqn:Ev.
      * apply sim_call1 with (purek := fun r _ => Ok (Leaf1 r, 1%Z)); [|auto]. intros r _. apply sim_ret.
        apply callsPost_one; simpl; auto. intros x y [<-|[]] [<-|[]] _. auto.
      * apply sim_ret. apply callsPost_nil. intros x y [<-|[]] [<-|[]]. auto.
    + cbn [elems]. destruct (veq a v) eqn:Ev; [|destruct (veq b v) eqn:Eb].
      * apply sim_call1 with (purek := fun r _ => Ok (Leaf2 r b, 1%Z)); [|auto]. intros r _. apply sim_ret.
        apply callsPost_one; simpl; auto. intros x y [<-|[<-|[]]] [<-|[]] Hq; auto.
        exfalso. assert (veq a b = true); [|congruence]. apply (veq_trans a v b); auto. apply veq_sym; auto.
      * apply sim_call1 with (purek := fun r _ => Ok (Leaf2 a r, 1%Z)); [|auto]. intros r _. apply sim_ret.
        apply callsPost_one; simpl; auto. intros x y [<-|[<-|[]]] [<-|[]] Hq; auto. congruence.
      * apply sim_lift_map. intros r. apply callsPost_nil. intros x y [<-|[<-|[]]] [<-|[]]; auto.
    + cbn [elems]. apply sim_pure with (pure := fun p => bind (Ok (replaceFirst (fun e => veq e v) (fun e => p (e, v)) l)) (fun o =>
        match o with Some l' => Ok (Twig l', 1%Z) | None =>
          o <- canonicalTwig fuel d (l ++ [v]) ;; match o with Some n' => Ok (n', 0%Z) | None => Panic end end)); [reflexivity|].
      eapply sim_bind; [apply replaceFirstS_sim; auto| | |].
      * intros tr1 o Hp _. assert (Hq : forall r : res (node * Z), callsPost l [v] tr1 r).
        { intros r. eapply callsPost_mono with (5 := Hp); [apply incl_refl|apply incl_refl|auto|eauto]. }
        destruct o as [l'|].
        -- apply sim_ret. rewrite app_nil_r. auto.
        -- eapply sim_bind with (P := fun tr _ => tr = []); [apply sim_lift; auto| | |].
           ++ intros tr o -> _. destruct o; [apply sim_ret|apply sim_lift]; rewrite !app_nil_r; auto.
           ++ intros tr ->. rewrite app_nil_r; auto.
           ++ intros tr ->. rewrite app_nil_r; auto.
      * intros tr1 [H3 _]. split; [exact H3|discriminate].
      * intros tr1 [H3 _]. split; [exact H3|discriminate].
    + fold (digit d v). rewrite <- newHasher_S.
      assert (Hother : forall a, In a (flat_map elemso data) -> veq a v = true -> In a (elemso (child data (digit d v)))).
      { intros a Ha Hq. apply in_flat_map_child in Ha as (i & Hi).
        assert (digit d a = i) by (apply Hp; auto). assert (digit d a = digit d v); [|congruence].
        apply (veq_digit (vok := vok)); auto. apply elemso_in in Hi as (c & Ec & Hc). apply (wf_allok (vok := vok) (S d) c); eauto. }
      destruct (child data (digit d v)) as [c|] eqn:Ec.
      * apply sim_pure with (pure := fun p => bind (with_ fuel (cargs g p) c v (S d) (newHasher v (S d))) (fun xm =>
          Ok (newBranch (withChild (mk, data) (digit d v) (Some (fst xm))), snd xm))).
        { intros p. fold (cargs g p). destruct (with_ _ _ _ _ _ _) as [[x m]| |]; reflexivity. }
        assert (Hinc : incl (elems c) (elems (Branch mk data))).
        { intros y Hy. rewrite elems_branch. apply in_flat_map_child. exists (digit d v). rewrite Ec. auto. }
        eapply sim_bind; [apply IH; eauto| | |].
        -- intros tr1 [x m] Hq _. apply sim_ret. rewrite app_nil_r.
           eapply callsPost_mono with (5 := Hq); [exact Hinc|apply incl_refl| |eauto].
           intros a b Ha [<-|[]] Hab. rewrite elems_branch in Ha. split; [apply (Hother a); auto|left; auto].
        -- intros tr1 [H3 _]. split; [eapply callsIn_incl; [exact Hinc|apply incl_refl|exact H3]|discriminate].
        -- intros tr1 [H3 _]. split; [eapply callsIn_incl; [exact Hinc|apply incl_refl|exact H3]|discriminate].
      * apply sim_ret. apply callsPost_nil. intros a b Ha [<-|[]]. rewrite elems_branch in Ha.
        destruct (veq a v) eqn:Ev; auto. destruct (Hother a); auto.
Qed.
Lemma with2S_sim fuel g d (f : W -> T * T -> T * W) n a b :
  fuelAt d <= fuel -> cbOk f -> wf d n -> vok a -> vok b -> veq a b = false ->
  sim f (with2S fuel veq f n a b d)
    (fun p => '(n1, m1) <- with_ fuel (cargs g p) n a d (newHasher a d) ;;
              '(n2, m2) <- with_ fuel (cargs g p) n1 b d (newHasher b d) ;; Ok (n2, (m1 + m2)%Z))
    (callsPost (elems n) [a; b]).
Proof.
  intros Hf Hcb Hwf Ha Hb Hab. unfold with2S.
  pose proof (wf_allok _ _ Hwf) as Hok. pose proof (wf_distinct _ _ Hwf) as Hdis.
  assert (Hinc : incl [a] [a; b]) by (intros x [<-|[]]; left; auto).
  eapply sim_bind.
  - apply (sim_answers f) with (ok := ansOk); [|apply withS_sim; auto].
    intros w [x y] Hx Hy Hq. apply Hcb; auto.
  - intros tr1 [n1 m1] [[Hin1 Hall1] Hans] Hag.
    set (cf := fun x y => ansC tr1 (x, y)).
    assert (Hcf : cfok (vok := vok) cf).
    { apply (ansC_ok (elems n) [a]); auto. intros e [<-|[]]; auto. }
    destruct (with_wf (vok := vok) d fuel (cargs g (ansC tr1)) n a) as (r & m & E1 & Hr & Hadd & _); auto.
    rewrite Hag in E1; [|apply (ansC_agrees (elems n) [a]); auto; [constructor; [intros ? []|constructor]|intros e [<-|[]]; auto]].
    inversion E1; subst r m. clear E1.
    assert (Hsame : forall e, veq e b = true -> In e (elems n1) <-> In e (elems n)).
    { intros e He. assert (Hlk : lookup (elems n1) b = lookup (elems n) b).
      { rewrite Hadd by auto. unfold upd. rewrite Hab. reflexivity. }
      pose proof (lookup_iff (vok := vok) (elems n1) b e (wf_distinct _ _ Hr) (wf_allok _ _ Hr) Hb).
      pose proof (lookup_iff (vok := vok) (elems n) b e Hdis Hok Hb). rewrite Hlk in *. tauto. }
    assert (Hout : forall tr2 (r1 : res (node * Z)) (r2 : res (node * Z)), (forall x, r2 = Ok x -> exists y, r1 = Ok y) ->
      callsPost (elems n1) [b] tr2 r1 -> callsPost (elems n) [a; b] (tr1 ++ tr2) r2).
    { intros tr2 r1 r2 Hr12 [[Hn2 Hin2] Hall2]. destruct Hin1 as [Hn1 Hin1]. split; [split|].
      - rewrite map_app. clear - Hn1 Hn2 Hin1 Hin2 Hab Ha Hb Hok KO. induction (map fst tr1) as [|[x y] l IH]; auto.
        simpl. inversion Hn1 as [|? ? H1 H2]; subst. constructor.
        + intros Hc. apply in_app_or in Hc as [Hc|Hc]; auto.
          destruct (Hin1 x y) as (Hx & [<-|[]] & Hq1); [left; auto|].
          destruct (Hin2 x a) as (_ & [Hba|[]] & Hq2); auto. subst b. rewrite veq_refl in Hab by auto. discriminate.
        + apply IH; auto. intros x' y' H. apply Hin1. right; auto.
      - intros x y Hxy. rewrite map_app in Hxy. apply in_app_or in Hxy as [Hxy|Hxy].
        + destruct (Hin1 _ _ Hxy) as (Hx & [<-|[]] & Hq). simpl. auto.
        + destruct (Hin2 _ _ Hxy) as (Hx & [<-|[]] & Hq). apply Hsame in Hx; auto. simpl. auto.
      - intros z Hz x y Hx Hy Hq. rewrite map_app. apply in_or_app. destruct Hy as [<-|[<-|[]]].
        + left. eapply Hall1; eauto. left; auto.
        + right. destruct (Hr12 z Hz) as (z' & Hz'). eapply Hall2; eauto; [apply Hsame; auto|left; auto]. }
    eapply sim_bind; [apply withS_sim; auto| | |].
    + intros tr2 [n2 m2] Hp2 _. apply sim_ret. rewrite app_nil_r. eapply Hout; [|exact Hp2]. eauto.
    + intros tr2 Hp2. eapply Hout; [|exact Hp2]. discriminate.
    + intros tr2 Hp2. eapply Hout; [|exact Hp2]. discriminate.
  - intros tr1 [[H1 _] _]. split; [|discriminate]. eapply callsIn_incl; [apply incl_refl|exact Hinc|exact H1].
  - intros tr1 [[H1 _] _]. split; [|discriminate]. eapply callsIn_incl; [apply incl_refl|exact Hinc|exact H1].
Qed.

Definition swap (q : T * T) : T * T := (snd q, fst q).

Lemma sim_flip {A} (f : W -> T * T -> T * W) (m : sres A) pure l1 l2 : allok l1 -> allok l2 ->
  sim (sflip f) m pure (callsPost l2 l1) -> sim f m (fun p => pure (fun q => p (swap q))) (callsPost l1 l2).
Proof.
  intros Hok1 Hok2 Hs.
  eapply sim_weak; [eapply (sim_conv f (sflip f) swap (fun _ r => r)); [|exact Hs]| |].
  - intros w q. unfold sflip. fold (swap q). destruct (f w (swap q)); reflexivity.
  - reflexivity.
  - intros tr r (l & -> & [[H1 H2] H3]). rewrite map_map in *. simpl in *.
    assert (Hin : forall x y, In (x, y) (map (fun z => swap (fst z)) l) <-> In (y, x) (map (fun z => fst z) l)).
    { intros x y. rewrite !in_map_iff. split; intros ([[u v] w] & Hz & Hl); simpl in *; inversion Hz; subst;
        eexists; (split; [|exact Hl]); reflexivity. }
    split; [split|].
    + rewrite map_map. simpl. clear - H1 Hin.
      replace (map (fun z => swap (fst z)) l) with (map swap (map (fun z => fst z) l)) by (rewrite map_map; auto).
      apply FinFun.Injective_map_NoDup; auto. intros [x y] [x' y'] H. unfold swap in H. simpl in H. inversion H; auto.
    + intros x y Hxy. rewrite map_map in Hxy. simpl in Hxy. apply Hin in Hxy. apply H2 in Hxy as (Hy & Hx & Hq).
      split; auto. split; auto. apply veq_sym; auto.
    + intros z Hz x y Hx Hy Hq. rewrite map_map. simpl. apply Hin. eapply H3; eauto. apply veq_sym; auto.
Qed.

Lemma combineLeaf1S_sim g (f : W -> T * T -> T * W) a b : sim f (combineLeaf1S veq f a b) (fun p => Ok (combineLeaf1 (cargs g p) a b)) (callsPost [a] [b]).
Proof.
  unfold combineLeaf1S, combineLeaf1, cargs; simpl. destruct (veq a b) eqn:Ev.
  - apply sim_call1 with (purek := fun r _ => Ok (Leaf1 r, 1%Z)); [|auto]. intros r _. apply sim_ret.
    apply callsPost_one; simpl; auto. intros x y [<-|[]] [<-|[]] _. auto.
  - apply sim_ret. apply callsPost_nil. intros x y [<-|[]] [<-|[]]. auto.
Qed.

Lemma combineLeaf21S_sim fuel g d (f : W -> T * T -> T * W) a b c : vok a -> vok b -> vok c -> veq a b = false ->
  sim f (combineLeaf21S fuel veq f d a b c) (fun p => combineLeaf21 fuel (cargs g p) d a b c) (callsPost [a; b] [c]).
Proof.
  intros Ha Hb Hc Hab. unfold combineLeaf21S, combineLeaf21, cargs; simpl.
  destruct (veq a c) eqn:Ev; [|destruct (veq b c) eqn:Eb].
  - apply sim_call1 with (purek := fun r _ => Ok (Leaf2 r b, 1%Z)); [|auto]. intros r _. apply sim_ret.
    apply callsPost_one; simpl; auto. intros x y [<-|[<-|[]]] [<-|[]] Hq; auto.
    exfalso. assert (veq a b = true); [|congruence]. apply (veq_trans a c b); auto. apply veq_sym; auto.
  - apply sim_call1 with (purek := fun r _ => Ok (Leaf2 a r, 1%Z)); [|auto]. intros r _. apply sim_ret.
    apply callsPost_one; simpl; auto. intros x y [<-|[<-|[]]] [<-|[]] Hq; auto. congruence.
  - apply sim_lift_map. intros r. apply callsPost_nil. intros x y [<-|[<-|[]]] [<-|[]]; auto.
Qed.

Definition stepOk (l0 l1 n0 n1 : T) (f : W -> T * T -> T * W) (o : option (sres (node * Z))) (po : (T * T -> T) -> option (res (node * Z))) : Prop :=
  match o with
  | Some m => exists pm, (forall p, po p = Some (pm p)) /\ sim f m pm (callsPost [l0; l1] [n0; n1])
  | None => (forall p, po p = None) /\ veq l0 n0 = false /\ veq l1 n1 = false
  end.

Lemma combineLeaf2S_step_sim fuel g d (f : W -> T * T -> T * W) l0 l1 n0 n1 :
  vok l0 -> vok l1 -> vok n0 -> vok n1 -> veq l0 l1 = false -> veq n0 n1 = false ->
  stepOk l0 l1 n0 n1 f (combineLeaf2S_step fuel veq f d l0 l1 n0 n1) (fun p => combineLeaf2_step fuel (cargs g p) d l0 l1 n0 n1).
Proof.
  intros Hl0 Hl1 Hn0 Hn1 Hl Hn.
  assert (Hx : forall a b c, vok a -> vok b -> vok c -> veq a c = true -> veq b c = true -> veq a b = true).
  { intros a b c Ha Hb Hc H1 H2. apply (veq_trans a c b); auto. apply veq_sym; auto. }
  assert (Hy : forall a b c, vok a -> vok b -> vok c -> veq a b = true -> veq a c = true -> veq b c = true).
  { intros a b c Ha Hb Hc H1 H2. apply (veq_trans b a c); auto. apply veq_sym; auto. }
  unfold combineLeaf2S_step, combineLeaf2_step, stepOk, cargs; cbn [c_eq c_f].
  destruct (veq l0 n0) eqn:E0; destruct (veq l1 n1) eqn:E1.
  - assert (F1 : veq l0 n1 = true -> False) by (intros H; rewrite (Hy l0 n0 n1) in Hn; auto; discriminate).
    assert (F2 : veq l1 n0 = true -> False) by (intros H; rewrite (Hx l0 l1 n0) in Hl; auto; discriminate).
    exists (fun p => Ok (Leaf2 (p (l0, n0)) (p (l1, n1)), 2%Z)). split; [auto|].
    apply sim_call1 with (purek := fun r p => Ok (Leaf2 r (p (l1, n1)), 2%Z)); [|auto]. intros r _.
    apply sim_call1 with (purek := fun r1 _ => Ok (Leaf2 r r1, 2%Z)); [|auto]. intros r1 _.
    apply sim_ret. split; [split|].
    + simpl. constructor; [|repeat constructor; intros []]. intros [H|[]]. inversion H; subst. rewrite veq_refl in Hl by auto. discriminate.
    + simpl. intros a b [H|[H|[]]]; inversion H; subst; auto.
    + simpl. intros x _ a b [<-|[<-|[]]] [<-|[<-|[]]] Hq; auto; exfalso; auto.
  - assert (F1 : veq l0 n1 = true -> False) by (intros H; rewrite (Hy l0 n0 n1) in Hn; auto; discriminate).
    assert (F2 : veq l1 n0 = true -> False) by (intros H; rewrite (Hx l0 l1 n0) in Hl; auto; discriminate).
    exists (fun p => b <- newBranchFrom fuel d [p (l0, n0); l1; n1] ;; Ok (b, 1%Z)). split; [auto|].
    apply sim_call1 with (purek := fun r p => b <- newBranchFrom fuel d [r; l1; n1] ;; Ok (b, 1%Z)); [|auto]. intros r _.
    apply sim_lift_map. intros r'. apply callsPost_one; simpl; auto.
    intros a b [<-|[<-|[]]] [<-|[<-|[]]] Hq; auto; exfalso; auto; congruence.
  - assert (F1 : veq l0 n1 = true -> False) by (intros H; rewrite (Hx l0 l1 n1) in Hl; auto; discriminate).
    assert (F2 : veq l1 n0 = true -> False) by (intros H; rewrite (Hy l1 n0 n1) in Hn; auto; discriminate).
    exists (fun p => b <- newBranchFrom fuel d [l0; n0; p (l1, n1)] ;; Ok (b, 1%Z)). split; [auto|].
    apply sim_call1 with (purek := fun r p => b <- newBranchFrom fuel d [l0; n0; r] ;; Ok (b, 1%Z)); [|auto]. intros r _.
    apply sim_lift_map. intros r'. apply callsPost_one; simpl; auto.
    intros a b [<-|[<-|[]]] [<-|[<-|[]]] Hq; auto; exfalso; auto; congruence.
  - auto.
Qed.

Lemma combineLeaf2S_sim fuel g d (f : W -> T * T -> T * W) l0 l1 n0 n1 :
  vok l0 -> vok l1 -> vok n0 -> vok n1 -> veq l0 l1 = false -> veq n0 n1 = false ->
  sim f (combineLeaf2S fuel veq f d l0 l1 n0 n1) (fun p => combineLeaf2 fuel (cargs g p) d l0 l1 n0 n1) (callsPost [l0; l1] [n0; n1]).
Proof.
  intros Hl0 Hl1 Hn0 Hn1 Hl Hn. unfold combineLeaf2S, combineLeaf2.
  pose proof (combineLeaf2S_step_sim fuel g d f l0 l1 n0 n1 Hl0 Hl1 Hn0 Hn1 Hl Hn) as H1.
  assert (Hn' : veq n1 n0 = false) by (apply (veq_false_sym (vok := vok)); auto).
  pose proof (combineLeaf2S_step_sim fuel g d f l0 l1 n1 n0 Hl0 Hl1 Hn1 Hn0 Hl Hn') as H2.
  destruct (combineLeaf2S_step fuel veq f d l0 l1 n0 n1) as [m|]; simpl in H1.
  - destruct H1 as (pm & H1 & Hs). apply sim_pure with (pure := pm); auto. intros p. rewrite H1. reflexivity.
  - destruct H1 as (H1 & F1 & F2). destruct (combineLeaf2S_step fuel veq f d l0 l1 n1 n0) as [m|]; simpl in H2.
    + destruct H2 as (pm & H2 & Hs). eapply sim_weak; [exact Hs| |].
      * intros p. rewrite H1, H2. reflexivity.
      * intros tr r Hp. eapply callsPost_mono with (5 := Hp); [apply incl_refl| | |eauto].
        -- intros x [<-|[<-|[]]]; simpl; auto.
        -- intros x y Hx Hy _. split; auto. destruct Hy as [<-|[<-|[]]]; simpl; auto.
    + destruct H2 as (H2 & F3 & F4).
      apply sim_pure with (pure := fun _ => b <- newBranchFrom fuel d [l0; l1; n0; n1] ;; Ok (b, 0%Z)).
      { intros p. rewrite H1, H2. reflexivity. }
      apply sim_lift_map. intros r. apply callsPost_nil. intros x y [<-|[<-|[]]] [<-|[<-|[]]]; auto.
Qed.
(** The calls for one more child. *)
Lemma callsIn_app l1 l2 l1' l2' tr tr' :
  callsIn l1 l2 tr -> callsIn l1' l2' tr' -> (forall a, In a l1 -> In a l1' -> False) -> callsIn (l1 ++ l1') (l2 ++ l2') (tr ++ tr').
Proof.
  intros [Hn Hin] [Hn' Hin'] Hd. split.
  - rewrite map_app. clear - Hn Hn' Hin Hin' Hd. induction (map fst tr) as [|[x y] l IH]; auto.
    simpl. inversion Hn as [|? ? H1 H2]; subst. constructor.
    + intros Hc. apply in_app_or in Hc as [Hc|Hc]; auto.
      destruct (Hin x y) as (Hx & _); [left; auto|]. destruct (Hin' x y) as (Hx' & _); auto. eauto.
    + apply IH; auto. intros a b H. apply Hin. right; auto.
  - intros a b Hab. rewrite map_app in Hab. apply in_app_or in Hab as [Hab|Hab].
    + destruct (Hin _ _ Hab) as (H1 & H2 & H3). repeat split; auto; apply in_or_app; auto.
    + destruct (Hin' _ _ Hab) as (H1 & H2 & H3). repeat split; auto; apply in_or_app; auto.
Qed.
Lemma callsPost_app {A B C} l1 l2 l1' l2' tr tr' (r : res A) (r' : res B) (r0 : res C) :
  (exists x, r = Ok x) -> (forall x, r0 = Ok x -> exists y, r' = Ok y) ->
  callsPost l1 l2 tr r -> callsPost l1' l2' tr' r' -> (forall a, In a l1 -> In a l1' -> False) ->
  (forall a b, In a l1 -> In b l2' -> veq a b = false) -> (forall a b, In a l1' -> In b l2 -> veq a b = false) ->
  callsPost (l1 ++ l1') (l2 ++ l2') (tr ++ tr') r0.
Proof.
  intros (x & Hx) Hr [H1 H2] [H3 H4] Hd Hv1 Hv2. split; [apply callsIn_app; auto|].
  intros y Hy a b Ha Hb Hq. destruct (Hr y Hy) as (y' & Hy'). rewrite map_app. apply in_or_app.
  apply in_app_or in Ha as [Ha|Ha]; apply in_app_or in Hb as [Hb|Hb]; eauto; exfalso.
  - rewrite Hv1 in Hq; auto; discriminate.
  - rewrite Hv2 in Hq; auto; discriminate.
Qed.

Lemma in_order g d m (data : list (option node)) e : length data = fanout -> gaugeOk g ->
  (forall i c, child data i = Some c -> In i (mask_indices m)) ->
  In e (flat_map (fun i => elemso (child data i)) (par_order g d m)) <-> In e (flat_map elemso data).
Proof.
  intros Hl Hg Hm. rewrite in_flat_map, in_flat_map_child. split.
  - intros (i & _ & H). eauto.
  - intros (i & H). exists i. split; auto. apply elemso_in in H as (c & Ec & _).
    eapply Permutation_in; [symmetry; apply par_order_perm; auto|]. eauto.
Qed.

Lemma combineS_sim fuel : forall g d (f : W -> T * T -> T * W) n n2,
  wf d n -> wf d n2 -> cbOk f -> gaugeOk g -> fuelBin d <= fuel ->
  sim f (combineS fuel g veq f n n2 d) (fun p => combine fuel (cargs g p) n n2 d) (callsPost (elems n) (elems n2)).
Proof.
  induction fuel as [|fuel IH]; intros g d f n n2 Hwf1 Hwf2 Hcb Hg Hf; [unfold fuelBin in Hf; lia|].
  unfold fuelBin in Hf.
  pose proof (wf_allok _ _ Hwf1) as Hok1. pose proof (wf_distinct _ _ Hwf1) as Hdis1.
  pose proof (wf_allok _ _ Hwf2) as Hok2. pose proof (wf_distinct _ _ Hwf2) as Hdis2.
  assert (Hpanic : forall pure : (T * T -> T) -> res (node * Z), (forall p, pure p = Panic) ->
    sim f (slift Panic) pure (callsPost (elems n) (elems n2))).
  { intros pure Hp. apply sim_pure with (pure := fun _ => Panic); auto. apply sim_lift. split; [apply callsIn_nil|discriminate]. }
  destruct n as [a|a b|l|m1 d1].
  - inversion Hwf1; subst. destruct n2 as [x|x y|l2|m2 d2]; cbn [combineS combine].
    + apply combineLeaf1S_sim.
    + inversion Hwf2; subst. apply (sim_flip f _ (fun p => combineLeaf21 fuel (cargs g p) d x y a)); auto.
      apply (combineLeaf21S_sim fuel g d (sflip f) x y a); auto.
    + apply Hpanic; auto.
    + apply (sim_flip f _ (fun p => with_ fuel (cargs g p) (Branch m2 d2) a d (newHasher a d))); auto. apply (withS_sim fuel g d (sflip f) (Branch m2 d2) a); auto.
  - inversion Hwf1; subst. destruct n2 as [x|x y|l2|m2 d2]; cbn [combineS combine].
    + inversion Hwf2; subst. apply combineLeaf21S_sim; auto.
    + inversion Hwf2; subst. apply combineLeaf2S_sim; auto.
    + apply Hpanic; auto.
    + apply (sim_flip f _ (fun p => '(n1, m1) <- with_ fuel (cargs g p) (Branch m2 d2) a d (newHasher a d) ;;
              '(n2, m2) <- with_ fuel (cargs g p) n1 b d (newHasher b d) ;; Ok (n2, (m1 + m2)%Z))); auto. apply (with2S_sim fuel g d (sflip f) (Branch m2 d2) a b); auto; [unfold fuelAt; lia|].
      apply cbOk_flip; auto.
  - cbn [combineS combine]. inversion Hwf1; subst. destruct n2 as [x|x y|l2|m2 d2]; apply Hpanic; auto.
    intros p. destruct fuel as [|[|fuel]]; try lia. apply combineTwig_panics; auto.
  - inversion Hwf1 as [| | |d' m' data' Hd Hlen1 Hm1 Hch1 Hp1 Hl1]; subst d' m' data'.
    destruct n2 as [x|x y|l2|m2 d2]; cbn [combineS combine].
    + inversion Hwf2; subst. apply withS_sim; auto.
    + inversion Hwf2; subst. apply with2S_sim; auto. unfold fuelAt; lia.
    + inversion Hwf2; subst. lia.
    + inversion Hwf2 as [| | |d' m' data' Hd' Hlen2 Hm2 Hch2 Hp2 Hl2]; subst d' m' data'.
      unfold parallel. cbn [c_gauge cargs]. set (order := par_order g d (N.lor m1 m2)).
      set (F := fun (p : T * T -> T) i (ret : packer T) =>
               match child d1 i, child d2 i with
               | None, y => Ok (true, 0%Z, setNonNilChild ret i y)
               | x, None => Ok (true, 0%Z, setNonNilChild ret i x)
               | Some x, Some y =>
                   '(r, m) <- combine fuel (c_sub i (cargs g p)) x y (S d) ;;
                   Ok (true, m, (fst ret, set_nth (snd ret) i (Some r)))
               end).
      apply sim_pure with (pure := fun p =>
        bind (rmap (fun y => (snd (fst y), snd y)) (par_loop (F p) order 0%Z emptyPacker))
          (fun mn => Ok (Branch (updateMask (snd (snd mn))) (snd (snd mn)), fst mn))).
      { intros p. fold (cargs g p). fold (F p). destruct (par_loop _ _ _ _) as [[[ok m] ret]| |]; reflexivity. }
      assert (Hmask : (N.lor m1 m2 < 2 ^ 16)%N).
      { rewrite Hm1, Hm2. apply lt_pow_lor; apply updateMask_lt. }
      assert (Hcov : forall i, isSome (child d1 i) = true \/ isSome (child d2 i) = true -> In i (mask_indices (N.lor m1 m2))).
      { intros i Hi. rewrite mask_indices_spec by auto. unfold one_bits. apply filter_In.
        rewrite (child_in_mask m1 m2 d1 d2 i) by auto. split; [|destruct Hi as [-> | ->]; auto; apply orb_true_r].
        apply in_seq. assert (i < fanout); [|pose proof fanout_le; lia].
        destruct (Nat.lt_ge_cases i fanout); auto. rewrite !child_overflow in Hi by lia. destruct Hi; discriminate. }
      assert (Hnd : NoDup order).
      { eapply Permutation_NoDup; [symmetry; apply par_order_perm; auto|]. apply mask_indices_NoDup; auto. }
      set (F1 := fun dn => flat_map (fun i => elemso (child d1 i)) dn). set (F2 := fun dn => flat_map (fun i => elemso (child d2 i)) dn).
      assert (Hinc1 : forall e, In e (F1 order) <-> In e (elems (Branch m1 d1))).
      { intros e. rewrite elems_branch. apply in_order; auto. intros i c Ec. apply Hcov. rewrite Ec. auto. }
      assert (Hinc2 : forall e, In e (F2 order) <-> In e (elems (Branch m2 d2))).
      { intros e. rewrite elems_branch. apply in_order; auto. intros i c Ec. apply Hcov. rewrite Ec. auto. }
      eapply sim_bind with (P := fun tr r => callsPost (elems (Branch m1 d1)) (elems (Branch m2 d2)) tr r).
      * eapply sim_weak.
        { eapply (sim_par f) with (f := F)
            (h := fun p i (ret : packer T) => match child d1 i, child d2 i with
               | None, y => Ok (0%Z, setNonNilChild ret i y)
               | x, None => Ok (0%Z, setNonNilChild ret i x)
               | Some x, Some y =>
                   '(r, m) <- combine fuel (c_sub i (cargs g p)) x y (S d) ;; Ok (m, (fst ret, set_nth (snd ret) i (Some r)))
               end)
            (I := fun dn tr _ => callsPost (F1 dn) (F2 dn) tr (Ok tt))
            (J := fun tr _ => callsIn (elems (Branch m1 d1)) (elems (Branch m2 d2)) tr).
          - intros p i ret Hi. unfold F. destruct (child d1 i) as [x|], (child d2 i) as [y|]; auto.
            destruct (combine _ _ _ _ _) as [[r m]| |]; reflexivity.
          - intros dn rest i ret tr Ho HI.
            assert (Hni : ~ In i dn).
            { intros Hi. rewrite Ho in Hnd. apply NoDup_remove_2 in Hnd. apply Hnd. apply in_or_app; auto. }
            assert (Hdig : forall a, In a (F1 dn) \/ In a (F2 dn) -> In (digit d a) dn /\ vok a).
            { intros a [Ha|Ha]; apply in_flat_map in Ha as (j & Hj & Ha).
              - rewrite (Hp1 j a) by auto. split; auto. apply elemso_in in Ha as (c & Ec & Hc). apply (wf_allok (S d) c); eauto.
              - rewrite (Hp2 j a) by auto. split; auto. apply elemso_in in Ha as (c & Ec & Hc). apply (wf_allok (S d) c); eauto. }
            assert (Hdig' : forall a, In a (elemso (child d1 i)) \/ In a (elemso (child d2 i)) -> digit d a = i /\ vok a).
            { intros a [Ha|Ha]; (split; [auto|]); apply elemso_in in Ha as (c & Ec & Hc); apply (wf_allok (S d) c); eauto. }
            assert (Hi1 : forall a, In a (F1 dn) -> In a (elemso (child d1 i)) -> False).
            { intros a H1 H2. destruct (Hdig a) as [H3 _]; auto. destruct (Hdig' a) as [H4 _]; auto. rewrite H4 in H3. auto. }
            assert (Hi2 : forall a b, In a (F1 dn) -> In b (elemso (child d2 i)) -> veq a b = false).
            { intros a b H1 H2. destruct (Hdig a) as [H3 H5]; auto. destruct (Hdig' b) as [H4 H6]; auto.
              destruct (veq a b) eqn:Ev; auto. rewrite (veq_digit (vok := vok) a b), H4 in H3 by auto. contradiction. }
            assert (Hi3 : forall a b, In a (elemso (child d1 i)) -> In b (F2 dn) -> veq a b = false).
            { intros a b H1 H2. destruct (Hdig b) as [H3 H5]; auto. destruct (Hdig' a) as [H4 H6]; auto.
              destruct (veq a b) eqn:Ev; auto. rewrite <- (veq_digit (vok := vok) a b), H4 in H3 by auto. contradiction. }
            assert (HF1 : F1 (dn ++ [i]) = F1 dn ++ elemso (child d1 i)) by (unfold F1; rewrite flat_map_app; simpl; rewrite app_nil_r; auto).
            assert (HF2 : F2 (dn ++ [i]) = F2 dn ++ elemso (child d2 i)) by (unfold F2; rewrite flat_map_app; simpl; rewrite app_nil_r; auto).
            assert (Hs1 : incl (F1 dn ++ elemso (child d1 i)) (elems (Branch m1 d1))).
            { intros e He. apply Hinc1. rewrite Ho. rewrite <- HF1 in He. unfold F1 in *. rewrite flat_map_app in *. simpl in *.
              rewrite app_nil_r in He. apply in_app_or in He as [He|He]; apply in_or_app; auto. right. apply in_or_app; auto. }
            assert (Hs2 : incl (F2 dn ++ elemso (child d2 i)) (elems (Branch m2 d2))).
            { intros e He. apply Hinc2. rewrite Ho. rewrite <- HF2 in He. unfold F2 in *. rewrite flat_map_app in *. simpl in *.
              rewrite app_nil_r in He. apply in_app_or in He as [He|He]; apply in_or_app; auto. right. apply in_or_app; auto. }
            assert (Hnil : elemso (child d1 i) = [] \/ elemso (child d2 i) = [] -> callsPost (F1 (dn ++ [i])) (F2 (dn ++ [i])) (tr ++ []) (Ok tt)).
            { intros Hn. rewrite HF1, HF2. eapply callsPost_app with (r := Ok tt) (r' := Ok tt); eauto.
              apply callsPost_nil. intros a b Ha Hb. destruct Hn as [Hn|Hn]; [rewrite Hn in Ha; destruct Ha|rewrite Hn in Hb; destruct Hb]. }
            destruct (child d1 i) as [x|] eqn:E1; [destruct (child d2 i) as [y|] eqn:E2|].
            + eapply sim_bind.
              * apply (IH (g_sub i g) (S d) f x y); eauto; [apply gaugeOk_sub; auto|unfold fuelBin; lia].
              * intros tr1 [r m] Hp _. apply sim_ret. rewrite app_nil_r, HF1, HF2. eapply callsPost_app with (r := Ok tt) (4 := Hp); eauto.
              * intros tr1 [Hp _]. eapply callsIn_incl; [exact Hs1|exact Hs2|]. apply callsIn_app; auto. apply HI.
              * intros tr1 [Hp _]. eapply callsIn_incl; [exact Hs1|exact Hs2|]. apply callsIn_app; auto. apply HI.
            + apply sim_ret. simpl. apply Hnil. auto.
            + apply sim_ret. simpl. apply Hnil. auto.
          - apply callsPost_nil. intros a b []. }
        { auto. }
        { intros tr r H. destruct r as [mx| |]; try (split; [exact H|discriminate]).
          eapply callsPost_mono with (5 := H); eauto.
          - intros e He. apply Hinc1. auto.
          - intros e He. apply Hinc2. auto.
          - intros a b Ha Hb _. split; [apply Hinc1|apply Hinc2]; auto. }
      * intros tr1 [m ret] Hp _. apply sim_ret. rewrite app_nil_r.
        eapply callsPost_mono with (5 := Hp); [apply incl_refl|apply incl_refl|auto|eauto].
      * intros tr1 [Hp _]. split; [exact Hp|discriminate].
      * intros tr1 [Hp _]. split; [exact Hp|discriminate].
Qed.
End NodeCalls.
