(** * Goroutines: all goroutines of an operation, also those still running when [Gauge.Parallel] has returned.

    Concurrency.v drops the workers that are still running when [Parallel] returns early (gauge.go:69).
    Here they run on. The buffer of the channel (gauge.go:57) is large enough for the outcomes of all workers, so none of
    them waits forever for a receiver. The goroutines started (gauge.go:60) are counted.

    Simplifications: as in Concurrency.v. *)
From Verif Require Import Base Bits Env EnvFacts Concurrency.

Section Goroutines.
Context {A X F : Type}.
Notation gprog := (gprog A X F).
Notation worker := (worker A X F).
Notation shared := (shared X).
Notation wact := (wact X).
Notation label := (@label X).
(** [depth.Fanout], the capacity of the channel (gauge.go:57). *)
Variable chanCap : nat.

(** The goroutines a program starts as it begins (gauge.go:58-64), with those that these start as they begin. *)
Fixpoint fresh (g : gprog) : nat :=
  match g with
  | GFork ws _ _ _ _ _ =>
      (fix all (ws : list worker) : nat :=
         match ws with
         | [] => 0
         | w :: ws' => S (match w with WRun g' _ => fresh g' | _ => 0 end + all ws')
         end) ws
  | _ => 0
  end.
Definition freshW (w : worker) : nat := match w with WRun g _ => fresh g | _ => 0 end.
Fixpoint freshWs (ws : list worker) : nat := match ws with [] => 0 | w :: ws' => S (freshW w + freshWs ws') end.

(** The goroutine of the caller, or the workers that a call of [Parallel] has left behind, with their captured variables
    and their channel, from which nobody receives (gauge.go:69, 83). *)
Inductive thread : Type :=
| TProg (g : gprog)
| TGroup (ws : list worker) (sh : shared) (ch : list (bool * Z)).

(** A step as in Concurrency.v, with the workers it leaves behind and the number of goroutines it starts. *)
Inductive estep : option F -> gprog -> option F -> gprog -> list thread -> nat -> Prop :=
| e_load c k : estep c (GLoad k) c (k c) [] (fresh (k c))
| e_store c f k : estep c (GStore f k) (Some f) k [] (fresh k)
| e_worker c ws1 w ws2 l c' w' sh ch sh' ch' need acc k new n :
    ewstep c w l c' w' new n -> effect chanCap l sh ch sh' ch' ->
    estep c (GFork (ws1 ++ w :: ws2) sh ch need acc k) c' (GFork (ws1 ++ w' :: ws2) sh' ch' need acc k) new n
| e_recv c ws sh m ch need acc k :
    estep c (GFork ws sh ((true, m) :: ch) (S need) acc k) c (GFork ws sh ch need (acc + m)%Z k) [] 0
| e_stop c ws sh m ch need acc k :
    estep c (GFork ws sh ((false, m) :: ch) (S need) acc k) c (k false acc sh) [TGroup ws sh ch] (fresh (k false acc sh))
| e_done c ws sh ch acc k :
    estep c (GFork ws sh ch 0 acc k) c (k true acc sh) [TGroup ws sh ch] (fresh (k true acc sh))
with ewstep : option F -> worker -> label -> option F -> worker -> list thread -> nat -> Prop :=
| ew_run c g c' g' fin new n : estep c g c' g' new n -> ewstep c (WRun g fin) (@LTau X) c' (WRun g' fin) new n
| ew_ret c a fin : ewstep c (WRun (GRet a) fin) (@LTau X) c (WAct (fin a)) [] 0
| ew_load c m k : ewstep c (WAct (WLoadMask k)) (LLoad m) c (WAct (k m)) [] 0
| ew_mask c m k : ewstep c (WAct (WStoreMask m k)) (LMask m) c (WAct k) [] 0
| ew_slot c i x k : ewstep c (WAct (WStoreSlot i x k)) (LSlot i x) c (WAct k) [] 0
| ew_send c ok m : ewstep c (WAct (WSend ok m)) (LSend ok m) c WGone [] 0.

Scheme estep_ind2 := Minimality for estep Sort Prop with ewstep_ind2 := Minimality for ewstep Sort Prop.
Combined Scheme estep_mut from estep_ind2, ewstep_ind2.

Inductive tstep : option F -> thread -> option F -> thread -> list thread -> nat -> Prop :=
| t_prog c g c' g' new n : estep c g c' g' new n -> tstep c (TProg g) c' (TProg g') new n
| t_group c ws1 w ws2 l c' w' sh ch sh' ch' new n :
    ewstep c w l c' w' new n -> effect chanCap l sh ch sh' ch' ->
    tstep c (TGroup (ws1 ++ w :: ws2) sh ch) c' (TGroup (ws1 ++ w' :: ws2) sh' ch') new n.

(** All goroutines: the content of [flipped], the threads (the caller first), and how many goroutines have been started. *)
Definition sys : Type := (option F * list thread * nat)%type.

(** Any goroutine may make the next step. *)
Inductive sstep : sys -> sys -> Prop :=
| s_thread c l1 t l2 n c' t' new k : tstep c t c' t' new k ->
    sstep (c, l1 ++ t :: l2, n) (c', l1 ++ t' :: l2 ++ new, n + k).

(** A panic in any goroutine ends the program. *)
Definition tcrashed (t : thread) : Prop :=
  match t with TProg g => crashed g | TGroup ws _ _ => exists w, In w ws /\ wcrashed w end.
Definition scrashed (s : sys) : Prop := exists t, In t (snd (fst s)) /\ tcrashed t.

Inductive sruns : sys -> sys -> Prop :=
| sruns_refl s : sruns s s
| sruns_step s s1 s2 : ~ scrashed s -> sstep s s1 -> sruns s1 s2 -> sruns s s2.

(** The caller alone, at the start of an operation. *)
Definition start (g : gprog) : sys := (None, [TProg g], fresh g).

(** The goroutine has ended. *)
Definition tended (t : thread) : Prop :=
  match t with TProg g => exists a, g = GRet a | TGroup ws _ _ => Forall (fun w => w = WGone) ws end.

(** ** The steps are those of Concurrency.v *)

Lemma estep_gstep :
  (forall c g c' g' new n, estep c g c' g' new n -> gstep chanCap c g c' g') /\
  (forall c w l c' w' new n, ewstep c w l c' w' new n -> wstep chanCap c w l c' w').
Proof. apply estep_mut; intros; econstructor; eauto. Qed.

(** ** Every run ends *)

Lemma gind (P : gprog -> Prop) (Q : worker -> Prop) :
  (forall a, P (GRet a)) -> P GPanic -> (forall k, (forall c, P (k c)) -> P (GLoad k)) ->
  (forall f k, P k -> P (GStore f k)) ->
  (forall ws sh ch need acc k, Forall Q ws -> (forall b z s, P (k b z s)) -> P (GFork ws sh ch need acc k)) ->
  (forall g fin, P g -> Q (WRun g fin)) -> (forall a, Q (WAct a)) -> Q WGone -> forall g, P g.
Proof.
  intros Hr Hp Hl Hs Hf Hw Ha Hg. fix IH 1. intros g. destruct g as [a| |k|f k|ws sh ch need acc k].
  - apply Hr.
  - exact Hp.
  - apply Hl. intros c. apply IH.
  - apply Hs. apply IH.
  - apply Hf.
    + induction ws as [|w ws IHws]; constructor; auto. destruct w as [g fin|a|]; [apply Hw; apply IH|apply Ha|exact Hg].
    + intros b z s. apply IH.
Qed.

(** All runs of the thread end, also of the threads it leaves behind, whatever the others do. *)
Inductive SN : thread -> Prop :=
| sn_intro t :
    (forall c c' t' new n, tstep c t c' t' new n -> SN t') ->
    (forall c c' t' new n, tstep c t c' t' new n -> forall x, In x new -> SN x) -> SN t.
Inductive SNw : worker -> Prop :=
| snw_intro w :
    (forall c l c' w' new n, ewstep c w l c' w' new n -> SNw w') ->
    (forall c l c' w' new n, ewstep c w l c' w' new n -> forall x, In x new -> SN x) -> SNw w.

Definition back (w' w : worker) : Prop := exists c l c' new n, ewstep c w l c' w' new n.
Inductive backs : list worker -> list worker -> Prop :=
| backs_at l1 w l2 w' : back w' w -> backs (l1 ++ w' :: l2) (l1 ++ w :: l2).

Lemma snw_acc w : SNw w -> Acc back w.
Proof. induction 1 as [w _ IH _]. constructor. intros y (c & l & c' & new & n & H). eauto. Qed.

Lemma backs_acc l : Forall (Acc back) l -> Acc backs l.
Proof.
  induction 1 as [|g l Hg _ IH].
  - constructor. intros y Hy. inversion Hy. destruct l1; discriminate.
  - revert l IH. induction Hg as [g _ IHg]. intros l Hl. induction Hl as [l Hl0 IHl].
    constructor. intros y Hy. inversion Hy as [l1 g1 l2 g2 Hst E1 E2]; subst.
    destruct l1 as [|g0 l1]; simpl in E2; inversion E2; subst; simpl.
    + apply IHg; auto. constructor. exact Hl0.
    + apply IHl. constructor; auto.
Qed.

Lemma snws_step ws1 w ws2 c l c' w' new n : Forall SNw (ws1 ++ w :: ws2) -> ewstep c w l c' w' new n ->
  Forall SNw (ws1 ++ w' :: ws2) /\ (forall x, In x new -> SN x).
Proof.
  intros H Hst. apply Forall_app in H as [H1 H2]. inversion H2 as [|? ? H3 H4]; subst.
  inversion H3 as [? H5 H6]; subst. split; [|eauto]. apply Forall_app. split; auto. constructor; eauto.
Qed.

Lemma sn_group ws : Forall SNw ws -> forall sh ch, SN (TGroup ws sh ch).
Proof.
  intros H. assert (HA : Acc backs ws) by (apply backs_acc; eapply Forall_impl; [|exact H]; apply snw_acc).
  revert H. induction HA as [ws _ IH]. intros H sh ch. constructor.
  - intros c c' t' new n Hst. inversion Hst; subst. edestruct snws_step; eauto. apply IH; auto.
    constructor. unfold back. eauto 8.
  - intros c c' t' new n Hst. inversion Hst; subst. edestruct snws_step; eauto.
Qed.

Lemma sn_fork ws k : Forall SNw ws -> (forall b z s, SN (TProg (k b z s))) ->
  forall need sh ch acc, SN (TProg (GFork ws sh ch need acc k)).
Proof.
  intros H Hk. assert (HA : Acc backs ws) by (apply backs_acc; eapply Forall_impl; [|exact H]; apply snw_acc).
  revert H. induction HA as [ws _ IH]. intros H need. induction need as [|need IHn]; intros sh ch acc; constructor;
    intros c c' t' new n Hst; inversion Hst as [? ? ? g' ? ? He|]; subst; inversion He; subst; auto.
  - edestruct snws_step; eauto. apply IH; auto. constructor. unfold back. eauto 8.
  - edestruct snws_step; eauto.
  - intros x [<-|[]]. apply sn_group; auto.
  - edestruct snws_step; eauto. apply IH; auto. constructor. unfold back. eauto 8.
  - edestruct snws_step; eauto.
  - intros x [].
  - intros x [<-|[]]. apply sn_group; auto.
Qed.

Lemma snw_gone : SNw WGone.
Proof. constructor; intros c l c' w' new n H; inversion H. Qed.

Lemma snw_act a : SNw (WAct a).
Proof.
  induction a as [k IH|m k IH|i x k IH|ok m]; constructor; intros c l c' w' new n H; inversion H; subst; auto;
    try (intros x' []); try apply snw_gone.
Qed.

Lemma snw_run g fin : SN (TProg g) -> SNw (WRun g fin).
Proof.
  intros H. remember (TProg g) as t eqn:Et. revert g Et. induction H as [t _ IH Hnew _]. intros g ->. constructor.
  - intros c l c' w' new n H. inversion H; subst.
    + eapply IH; [|reflexivity]. constructor; eauto.
    + apply snw_act.
  - intros c l c' w' new n H. inversion H; subst.
    + eapply Hnew. constructor; eauto.
    + intros x [].
Qed.

Lemma sn_all g : SN (TProg g).
Proof.
  apply (gind (fun g => SN (TProg g)) SNw).
  - intros a. constructor; intros c c' t' new n H; inversion H as [? ? ? ? ? ? He|]; inversion He.
  - constructor; intros c c' t' new n H; inversion H as [? ? ? ? ? ? He|]; inversion He.
  - intros k Hk. constructor; intros c c' t' new n H; inversion H as [? ? ? ? ? ? He|]; subst; inversion He; subst; auto. intros x [].
  - intros f k Hk. constructor; intros c c' t' new n H; inversion H as [? ? ? ? ? ? He|]; subst; inversion He; subst; auto. intros x [].
  - intros ws sh ch need acc k Hw Hk. apply sn_fork; auto.
  - intros g0 fin Hg. apply snw_run; auto.
  - apply snw_act.
  - apply snw_gone.
Qed.

(** One step back of all goroutines together. *)
Definition sback (s' s : sys) : Prop := sstep s s'.
Definition lback (l' l : list thread) : Prop := exists c n c' n', sstep (c, l, n) (c', l', n').

Lemma app_split {Y} (l1 l2 a b : list Y) (x y : Y) : l1 ++ x :: l2 = a ++ y :: b ->
  (l1 = a /\ x = y /\ l2 = b) \/ (exists m, a = l1 ++ x :: m /\ l2 = m ++ y :: b) \/ (exists m, l1 = a ++ y :: m /\ b = m ++ x :: l2).
Proof.
  revert a. induction l1 as [|z l1 IH]; intros [|w a] H; simpl in H; inversion H; subst; auto.
  - right. left. exists a. auto.
  - right. right. exists l1. auto.
  - destruct (IH a H2) as [(-> & -> & ->)|[(m & -> & ->)|(m & -> & ->)]]; auto; right; [left|right]; exists m; auto.
Qed.

Lemma good_add t : SN t -> forall l1 l2, Acc lback (l1 ++ l2) -> Acc lback (l1 ++ t :: l2).
Proof.
  induction 1 as [t Ht IHt Hnew IHnew].
  enough (Hgen : forall l, Acc lback l -> forall l1 l2, l = l1 ++ l2 -> Acc lback (l1 ++ t :: l2)) by (intros; eapply Hgen; eauto).
  intros l Hl. induction Hl as [l Hl0 IHl]. intros l1 l2 ->.
  constructor. intros y (c & n & c' & n' & Hst). inversion Hst as [c0 a u b n0 c1 u' new k Ht1 E0 [E1 E2]]; subst; clear Hst.
  match goal with E : a ++ u :: b = _ |- _ => rename E into E1 end.
  destruct (app_split _ _ _ _ _ _ (eq_sym E1)) as [(-> & -> & ->)|[(m & -> & ->)|(m & -> & ->)]].
  - assert (Hn : forall x, In x new -> forall l, Acc lback l -> Acc lback (l ++ [x])).
    { intros x Hx l0 Hl1. eapply IHnew; eauto. rewrite app_nil_r. auto. }
    apply (IHt c c' u' new k Ht1). assert (HA : Acc lback (a ++ b)) by (constructor; auto). clear - Hn HA.
    revert Hn HA. rewrite app_assoc. generalize (a ++ b). induction new as [|x new IH]; intros l Hn HA; [rewrite app_nil_r; auto|].
    replace (l ++ x :: new) with ((l ++ [x]) ++ new) by (rewrite <- app_assoc; auto).
    apply IH; [intros; apply Hn; simpl; auto|]. apply Hn; simpl; auto.
  - assert (H : Acc lback (l1 ++ t :: (m ++ u' :: b ++ new))).
    { apply (IHl (l1 ++ m ++ u' :: b ++ new)); auto. exists c, n, c', (n + k). rewrite !app_assoc.
      change (u' :: b ++ new) with ((u' :: b) ++ new). change (u :: b) with ([u] ++ b).
      replace ((l1 ++ m) ++ (u' :: b) ++ new) with ((l1 ++ m) ++ u' :: b ++ new) by reflexivity. constructor; auto. }
    rewrite <- app_assoc. exact H.
  - assert (H : Acc lback ((a ++ u' :: m) ++ t :: (l2 ++ new))).
    { apply (IHl ((a ++ u' :: m) ++ l2 ++ new)); auto. exists c, n, c', (n + k).
      replace ((a ++ u :: m) ++ l2) with (a ++ u :: (m ++ l2)) by (rewrite <- app_assoc; auto).
      replace ((a ++ u' :: m) ++ l2 ++ new) with (a ++ u' :: (m ++ l2) ++ new) by (rewrite <- !app_assoc; auto). constructor; auto. }
    replace (a ++ u' :: (m ++ t :: l2) ++ new) with ((a ++ u' :: m) ++ t :: l2 ++ new) by (rewrite <- !app_assoc; simpl; rewrite <- ?app_assoc; auto).
    exact H.
Qed.

Lemma all_end g c n : Acc sback (c, [TProg g], n).
Proof.
  assert (H : Acc lback [TProg g]).
  { apply (good_add (TProg g) (sn_all g) [] []). constructor. intros y (c0 & n0 & c' & n' & H). inversion H. destruct l1; discriminate. }
  revert c n. induction H as [l _ IH]. intros c n. constructor. intros [[c' l'] n'] H. apply IH. exists c, n, c', n'. exact H.
Qed.

(** ** What the programs obey *)

Definition alive (ws : list worker) : nat := length (filter (fun w => negb (isGone w)) ws).

(** [m = true]: no worker reports false. [m = false]: nothing is assigned to [flipped], and no goroutine panics. *)
Fixpoint actTame (m : bool) (a : wact) : Prop :=
  match a with
  | WLoadMask k => forall x, actTame m (k x)
  | WStoreMask _ k => actTame m k
  | WStoreSlot _ _ k => actTame m k
  | WSend ok _ => m = true -> ok = true
  end.

(** The program starts at most [n] further goroutines, and every call of [Parallel] has room in its channel for the outcomes of
    its workers and waits for as many outcomes as there will be. *)
Inductive Tame (m : bool) : nat -> gprog -> Prop :=
| tm_ret n a : Tame m n (GRet a)
| tm_panic n : m = true -> Tame m n GPanic
| tm_load n k : (forall c, exists n', fresh (k c) + n' <= n /\ Tame m n' (k c)) -> Tame m n (GLoad k)
| tm_store n f k n' : m = true -> fresh k + n' <= n -> Tame m n' k -> Tame m n (GStore f k)
| tm_fork n n1 n2 ws sh ch need acc k :
    need = alive ws + length ch -> need <= chanCap -> (m = true -> Forall (fun o => fst o = true) ch) ->
    TameWs m n1 ws -> n1 + n2 <= n ->
    (forall b z s, (m = true -> b = true) -> exists n', fresh (k b z s) + n' <= n2 /\ Tame m n' (k b z s)) ->
    Tame m n (GFork ws sh ch need acc k)
with TameW (m : bool) : nat -> worker -> Prop :=
| tw_run n g fin : Tame m n g -> (forall a, actTame m (fin a)) -> TameW m n (WRun g fin)
| tw_act n a : actTame m a -> TameW m n (WAct a)
| tw_gone n : TameW m n WGone
with TameWs (m : bool) : nat -> list worker -> Prop :=
| tws_nil n : TameWs m n []
| tws_cons n n1 n2 w ws : TameW m n1 w -> TameWs m n2 ws -> n1 + n2 <= n -> TameWs m n (w :: ws).

(** The program starts at most [n] goroutines. *)
Definition New (m : bool) (n : nat) (g : gprog) : Prop := exists n', fresh g + n' <= n /\ Tame m n' g.
Definition NewW (m : bool) (n : nat) (w : worker) : Prop := exists n', freshW w + n' <= n /\ TameW m n' w.

Lemma tame_load_inv m n k : Tame m n (GLoad k) -> forall c, New m n (k c).
Proof. intros H. inversion H; subst. auto. Qed.
Lemma tame_store_inv m n f k : Tame m n (GStore f k) -> m = true /\ New m n k.
Proof. intros H. inversion H; subst. split; auto. eexists; eauto. Qed.
Lemma tame_fork_inv m n ws sh ch need acc k : Tame m n (GFork ws sh ch need acc k) -> exists n1 n2,
  need = alive ws + length ch /\ need <= chanCap /\ (m = true -> Forall (fun o => fst o = true) ch) /\ TameWs m n1 ws /\ n1 + n2 <= n /\
  (forall b z s, (m = true -> b = true) -> New m n2 (k b z s)).
Proof. intros H. inversion H; subst. exists n1, n2. auto 8. Qed.
Lemma tameW_run_inv m n g fin : TameW m n (WRun g fin) -> Tame m n g /\ forall a, actTame m (fin a).
Proof. intros H. inversion H; subst. auto. Qed.
Lemma tameW_act_inv m n a : TameW m n (WAct a) -> actTame m a.
Proof. intros H. inversion H; subst. auto. Qed.

Lemma tame_mono m n n' g : Tame m n g -> n <= n' -> Tame m n' g.
Proof.
  intros H Hn. inversion H; subst; try (constructor; auto; fail).
  - constructor. intros c. destruct (H0 c) as (x & H1 & H2). exists x. split; auto; lia.
  - apply tm_store with n'0; auto; lia.
  - apply tm_fork with n1 n2; auto; lia.
Qed.

Lemma tameWs_mono m n n' ws : TameWs m n ws -> n <= n' -> TameWs m n' ws.
Proof. intros H Hn. inversion H; subst; [constructor|]. eapply tws_cons; eauto. lia. Qed.

Lemma tameWs_mid m ws1 w ws2 : forall n, TameWs m n (ws1 ++ w :: ws2) ->
  exists n1 n2, TameW m n1 w /\ n1 + n2 <= n /\ forall n1' w', TameW m n1' w' -> TameWs m (n1' + n2) (ws1 ++ w' :: ws2).
Proof.
  induction ws1 as [|v ws1 IH]; intros n H; simpl in H; inversion H; subst.
  - exists n1, n2. split; auto. split; auto. intros n1' w' Hw. eapply tws_cons; eauto.
  - destruct (IH n2) as (a & b & ? & ? & ?); auto. exists a, (n1 + b). split; auto. split; [lia|].
    intros n1' w' Hw. simpl. apply tws_cons with n1 (n1' + b); auto; lia.
Qed.

Lemma alive_mid ws1 w ws2 : alive (ws1 ++ w :: ws2) = (if isGone w then 0 else 1) + alive (ws1 ++ ws2).
Proof. unfold alive. rewrite !filter_app, !app_length. simpl. destruct (isGone w); simpl; lia. Qed.

Lemma ewstep_gone c w l c' w' new n : ewstep c w l c' w' new n ->
  isGone w = false /\ isGone w' = match l with LSend _ _ => true | _ => false end.
Proof. intros H. inversion H; subst; auto. Qed.

(** The workers left behind. *)
Definition TameT (m : bool) (n : nat) (t : thread) : Prop :=
  match t with
  | TProg g => Tame m n g
  | TGroup ws sh ch => TameWs m n ws /\ alive ws + length ch <= chanCap /\ (m = true -> alive ws = 0)
  end.
Fixpoint TameTs (m : bool) (n : nat) (l : list thread) : Prop :=
  match l with
  | [] => True
  | t :: l' => exists n1 n2, n1 + n2 <= n /\ TameT m n1 t /\ TameTs m n2 l'
  end.

Lemma tameTs_mono m l : forall n n', TameTs m n l -> n <= n' -> TameTs m n' l.
Proof. destruct l as [|t l]; simpl; auto. intros n n' (a & b & H1 & H2 & H3) Hn. exists a, b. split; auto; lia. Qed.
Lemma tameTs_app m l1 l2 : forall n1 n2, TameTs m n1 l1 -> TameTs m n2 l2 -> TameTs m (n1 + n2) (l1 ++ l2).
Proof.
  induction l1 as [|t l1 IH]; intros n1 n2 H1 H2; simpl; [eapply tameTs_mono; eauto; lia|].
  destruct H1 as (a & b & Ha & Hb & Hc). exists a, (b + n2). split; [lia|]. split; auto.
Qed.

(** The channel after a step of a worker. *)
Lemma effect_alive (ws1 : list worker) w ws2 l c c' w' new n sh ch sh' ch' :
  ewstep c w l c' w' new n -> effect chanCap l sh ch sh' ch' ->
  alive (ws1 ++ w' :: ws2) + length ch' = alive (ws1 ++ w :: ws2) + length ch.
Proof.
  intros H He. rewrite !alive_mid. destruct (ewstep_gone _ _ _ _ _ _ _ H) as [-> ->].
  destruct l; simpl in He; [destruct He as [-> ->]|destruct He as (_ & -> & ->)|destruct He as [-> ->]|destruct He as [-> ->]|destruct He as (_ & -> & ->)]; try lia.
  rewrite app_length. simpl. lia.
Qed.

Definition labelTame (m : bool) (l : label) : Prop := match l with LSend ok _ => m = true -> ok = true | _ => True end.

Lemma tame_step m :
  (forall c g c' g' new n, estep c g c' g' new n -> forall b, Tame m b g ->
     (m = false -> c' = c) /\ exists b1 b2, b1 + b2 + n <= b /\ Tame m b1 g' /\ TameTs m b2 new) /\
  (forall c w l c' w' new n, ewstep c w l c' w' new n -> forall b, TameW m b w ->
     labelTame m l /\ (m = false -> c' = c) /\ exists b1 b2, b1 + b2 + n <= b /\ TameW m b1 w' /\ TameTs m b2 new).
Proof.
  apply estep_mut.
  - intros c k b H. destruct (tame_load_inv _ _ _ H c) as (n' & H2 & H3). split; auto. exists n', 0. simpl. split; auto; lia.
  - intros c f k b H. destruct (tame_store_inv _ _ _ _ H) as (Hm & n' & H2 & H3). split; [congruence|]. exists n', 0. simpl. split; auto; lia.
  - intros c ws1 w ws2 l c' w' sh ch sh' ch' need acc k new n Hst IH He b H.
    destruct (tame_fork_inv _ _ _ _ _ _ _ _ H) as (n1 & n2 & F1 & F2 & F3 & F4 & F5 & F6).
    destruct (tameWs_mid _ _ _ _ _ F4) as (a1 & a2 & Ha & Hb & Hc). destruct (IH _ Ha) as (Hl & Hc' & b1 & b2 & Hb1 & Hb2 & Hb3).
    split; auto. exists (b1 + a2 + n2), b2. split; [lia|]. split; auto.
    apply tm_fork with (b1 + a2) n2; auto.
    + rewrite F1. symmetry. eapply effect_alive; eauto.
    + intros Hm. destruct l; simpl in He; [destruct He as [_ ->]|destruct He as (_ & _ & ->)|destruct He as [_ ->]|destruct He as [_ ->]|destruct He as (_ & _ & ->)]; auto.
      apply Forall_app. split; auto.
  - intros c ws sh x ch need acc k b H.
    destruct (tame_fork_inv _ _ _ _ _ _ _ _ H) as (n1 & n2 & F1 & F2 & F3 & F4 & F5 & F6).
    split; auto. exists b, 0. simpl. split; [lia|]. split; auto.
    apply tm_fork with n1 n2; auto; simpl in *; try lia. intros Hm. specialize (F3 Hm). inversion F3; auto.
  - intros c ws sh x ch need acc k b H.
    destruct (tame_fork_inv _ _ _ _ _ _ _ _ H) as (n1 & n2 & F1 & F2 & F3 & F4 & F5 & F6). split; auto.
    assert (Hf : m = true -> False) by (intros Hm; specialize (F3 Hm); inversion F3; subst; discriminate).
    destruct (F6 false acc sh) as (n' & Hn1 & Hn2); [intros Hm; contradiction (Hf Hm)|].
    exists n', n1. split; [lia|]. split; auto. exists n1, 0. split; [lia|]. split; [|exact Logic.I].
    split; auto. simpl in *. split; [lia|]. intros Hm. contradiction (Hf Hm).
  - intros c ws sh ch acc k b H.
    destruct (tame_fork_inv _ _ _ _ _ _ _ _ H) as (n1 & n2 & F1 & F2 & F3 & F4 & F5 & F6). split; auto.
    destruct (F6 true acc sh) as (n' & Hn1 & Hn2); auto.
    exists n', n1. split; [lia|]. split; auto. exists n1, 0. split; [lia|]. split; [|exact Logic.I].
    split; auto. split; intros; lia.
  - intros c g c' g' fin new n Hst IH b H. destruct (tameW_run_inv _ _ _ _ H) as [H2 Hf]. destruct (IH _ H2) as (Hc & b1 & b2 & H5 & H6 & H7).
    split; [exact Logic.I|]. split; auto. exists b1, b2. split; auto. split; auto. constructor; auto.
  - intros c a fin b H. destruct (tameW_run_inv _ _ _ _ H) as [H2 Hf]. split; [exact Logic.I|]. split; auto. exists b, 0. split; [lia|]. split; [|exact Logic.I]. constructor; auto.
  - intros c x k b H. apply tameW_act_inv in H. split; [exact Logic.I|]. split; auto. exists b, 0. split; [lia|]. split; [|exact Logic.I]. constructor; simpl in *; auto.
  - intros c x k b H. apply tameW_act_inv in H. split; [exact Logic.I|]. split; auto. exists b, 0. split; [lia|]. split; [|exact Logic.I]. constructor; simpl in *; auto.
  - intros c i x k b H. apply tameW_act_inv in H. split; [exact Logic.I|]. split; auto. exists b, 0. split; [lia|]. split; [|exact Logic.I]. constructor; simpl in *; auto.
  - intros c ok x b H. apply tameW_act_inv in H. split; [exact H|]. split; auto. exists b, 0. split; [lia|]. split; [|exact Logic.I]. constructor.
Qed.

Lemma tameT_step m c t c' t' new n b : tstep c t c' t' new n -> TameT m b t ->
  (m = false -> c' = c) /\ exists b1 b2, b1 + b2 + n <= b /\ TameT m b1 t' /\ TameTs m b2 new.
Proof.
  intros Hst H. inversion Hst as [? ? ? ? ? ? He|? ws1 w ws2 l ? w' sh ch sh' ch' ? ? Hw Heff]; subst.
  - eapply tame_step; eauto.
  - destruct H as (H1 & H2 & H3). destruct (tameWs_mid _ _ _ _ _ H1) as (a1 & a2 & Ha & Hb & Hc).
    destruct (proj2 (tame_step m) _ _ _ _ _ _ _ Hw _ Ha) as (Hl & Hc' & b1 & b2 & Hb1 & Hb2 & Hb3).
    split; auto. exists (b1 + a2), b2. split; [lia|]. split; auto. split; auto.
    pose proof (effect_alive ws1 w ws2 _ _ _ _ _ _ _ _ _ _ Hw Heff). split; [lia|].
    intros Hm. specialize (H3 Hm). rewrite alive_mid in H3. destruct (ewstep_gone _ _ _ _ _ _ _ Hw) as [E _]. rewrite E in H3. lia.
Qed.

(** Threads of programs that never stop early are left behind only when they have ended. *)
Lemma group_dead m ws sh ch b c c' t' new n : m = true -> TameT m b (TGroup ws sh ch) -> ~ tstep c (TGroup ws sh ch) c' t' new n.
Proof.
  intros Hm (_ & _ & H) Hst. specialize (H Hm). inversion Hst; subst. rewrite alive_mid in H.
  edestruct ewstep_gone as [E _]; eauto. rewrite E in H. lia.
Qed.

(** ** No goroutine waits forever *)

Lemma alive_in ws : 0 < alive ws -> exists ws1 w ws2, ws = ws1 ++ w :: ws2 /\ isGone w = false.
Proof.
  induction ws as [|w ws IH]; unfold alive in *; simpl; [lia|]. destruct (isGone w) eqn:E; simpl.
  - intros H. destruct (IH H) as (a & x & b & -> & Hx). exists (w :: a), x, b. auto.
  - intros _. exists [], w, ws. auto.
Qed.

Definition canGo (m : bool) (g : gprog) : Prop := forall b, Tame m b g ->
  (exists a, g = GRet a) \/ crashed g \/ forall c, exists c' g' new n, estep c g c' g' new n.
Definition canGoW (m : bool) (w : worker) : Prop := forall b, TameW m b w -> isGone w = false ->
  wcrashed w \/ forall c sh ch, length ch < chanCap -> exists l c' w' new n sh' ch', ewstep c w l c' w' new n /\ effect chanCap l sh ch sh' ch'.

Lemma canGoWs m ws : Forall (canGoW m) ws -> forall b, TameWs m b ws -> 0 < alive ws ->
  (exists w, In w ws /\ wcrashed w) \/
  forall c sh ch, length ch < chanCap -> exists ws1 w ws2 l c' w' new n sh' ch', ws = ws1 ++ w :: ws2 /\
    ewstep c w l c' w' new n /\ effect chanCap l sh ch sh' ch'.
Proof.
  intros H b Ht Ha. destruct (alive_in ws Ha) as (ws1 & w & ws2 & -> & Hw). apply Forall_app in H as [_ H]. inversion H; subst.
  destruct (tameWs_mid _ _ _ _ _ Ht) as (a1 & a2 & H4 & _). destruct (H2 _ H4 Hw) as [Hc|Hs].
  - left. exists w. split; auto. apply in_app_iff. right. left. auto.
  - right. intros c sh ch Hl. destruct (Hs c sh ch Hl) as (l & c' & w' & new & n & sh' & ch' & H5 & H6).
    exists ws1, w, ws2, l, c', w', new, n, sh', ch'. auto.
Qed.

Lemma canGo_act m a : canGoW m (WAct a).
Proof.
  intros b _ _. right. intros c sh ch Hl. destruct a as [k|x k|i x k|ok x].
  - exists (LLoad (fst sh)), c, (WAct (k (fst sh))), [], 0, sh, ch. split; [constructor|simpl; auto].
  - exists (LMask x), c, (WAct k), [], 0, (x, snd sh), ch. split; [constructor|simpl; auto].
  - exists (LSlot i x), c, (WAct k), [], 0, (fst sh, set_nth (snd sh) i x), ch. split; [constructor|simpl; auto].
  - exists (LSend ok x), c, WGone, [], 0, sh, (ch ++ [(ok, x)]). split; [constructor|simpl; auto].
Qed.

Lemma canGo_all m g : canGo m g.
Proof.
  apply (gind (canGo m) (canGoW m)).
  - intros a b _. left. eauto.
  - intros b _. right. left. constructor.
  - intros k _ b _. right. right. intros c. eexists _, _, _, _. constructor.
  - intros f k _ b _. right. right. intros c. eexists _, _, _, _. constructor.
  - intros ws sh ch need acc k Hw _ b H.
    destruct (tame_fork_inv _ _ _ _ _ _ _ _ H) as (n1 & n2 & F1 & F2 & F3 & F4 & F5 & F6). clear H. subst need. right.
    destruct ch as [|[o x] ch].
    + destruct (alive ws) as [|al] eqn:Ea; [right; intros c; eexists _, _, _, _; constructor|].
      destruct (canGoWs m ws Hw _ F4) as [(w & Hin & Hc)|Hs]; [lia| |].
      * left. destruct w as [g' fin|a|]; simpl in Hc; try contradiction. econstructor; eauto.
      * right. intros c. destruct (Hs c sh []) as (ws1 & w & ws2 & l & c' & w' & new & n & sh' & ch' & -> & H12 & H13); [simpl in *; lia|].
        eexists _, _, _, _. eapply e_worker; eauto.
    + right. intros c. simpl. rewrite Nat.add_succ_r. destruct o; eexists _, _, _, _; constructor.
  - intros g0 fin IH b H _. apply tameW_run_inv in H as [H2 _]. destruct (IH _ H2) as [(a & ->)|[Hc|Hs]].
    + right. intros c sh ch _. exists (@LTau X), c, (WAct (fin a)), [], 0, sh, ch. split; [constructor|simpl; auto].
    + left. exact Hc.
    + right. intros c sh ch _. destruct (Hs c) as (c' & g' & new & n & Hst).
      exists (@LTau X), c', (WRun g' fin), new, n, sh, ch. split; [constructor; auto|simpl; auto].
  - apply canGo_act.
  - intros b _ E. discriminate.
Qed.

Lemma canGoW_all m w : canGoW m w.
Proof.
  destruct w as [g fin|a|]; [|apply canGo_act|intros b _ E; discriminate].
  intros b H _. apply tameW_run_inv in H as [H2 _]. destruct (canGo_all m g _ H2) as [(a & ->)|[Hc|Hs]].
  - right. intros c sh ch _. exists (@LTau X), c, (WAct (fin a)), [], 0, sh, ch. split; [constructor|simpl; auto].
  - left. exact Hc.
  - right. intros c sh ch _. destruct (Hs c) as (c' & g' & new & n & Hst).
    exists (@LTau X), c', (WRun g' fin), new, n, sh, ch. split; [constructor; auto|simpl; auto].
Qed.

Lemma thread_goes m b t : TameT m b t -> tended t \/ tcrashed t \/ forall c, exists c' t' new n, tstep c t c' t' new n.
Proof.
  destruct t as [g|ws sh ch]; simpl; intros H.
  - destruct (canGo_all m g _ H) as [Hr|[Hc|Hs]]; auto. right. right. intros c. destruct (Hs c) as (c' & g' & new & n & Hst).
    exists c', (TProg g'), new, n. constructor; auto.
  - destruct H as (H1 & H2 & H3). destruct (alive ws) as [|al] eqn:Ea.
    + left. apply Forall_forall. intros w Hw. destruct (isGone w) eqn:E; [destruct w; simpl in E; congruence|]. exfalso.
      apply in_split in Hw as (a & b' & ->). rewrite alive_mid, E in Ea. lia.
    + destruct (canGoWs m ws (proj2 (Forall_forall _ _) (fun w _ => canGoW_all m w)) _ H1) as [Hc|Hs]; [lia|auto|].
      right. right. intros c. destruct (Hs c sh ch) as (ws1 & w & ws2 & l & c' & w' & new & n & sh' & ch' & -> & H12 & H13); [lia|].
      eexists _, _, _, _. eapply t_group; eauto.
Qed.

(** Programs of the second kind do not panic. *)
Lemma tame_safe g : forall b, Tame false b g -> ~ crashed g.
Proof.
  apply (gind (fun g => forall b, Tame false b g -> ~ crashed g) (fun w => forall b, TameW false b w -> ~ wcrashed w)).
  - intros a b _ H. inversion H.
  - intros b H. inversion H. discriminate.
  - intros k _ b _ H. inversion H.
  - intros f k _ b _ H. inversion H.
  - intros ws sh ch need acc k Hw _ b H Hc.
    destruct (tame_fork_inv _ _ _ _ _ _ _ _ H) as (n1 & n2 & F1 & F2 & F3 & F4 & F5 & F6). clear H. subst need. inversion Hc as [|? ? ? ? ? ? g' fin Hin Hg]; subst.
    apply in_split in Hin as (a & b' & ->). destruct (tameWs_mid _ _ _ _ _ F4) as (n3 & n4 & Hwt & _).
    apply Forall_app in Hw as [_ Hw]. inversion Hw as [|? ? Hw1 Hw2]; subst. apply (Hw1 _ Hwt). exact Hg.
  - intros g0 fin IH b H. apply tameW_run_inv in H as [H2 _]. simpl. eauto.
  - intros a b _ [].
  - intros b _ [].
Qed.

Lemma tameT_safe b t : TameT false b t -> ~ tcrashed t.
Proof.
  destruct t as [g|ws sh ch]; simpl; [apply tame_safe|]. intros (H & _) (w & Hin & Hc).
  apply in_split in Hin as (l1 & l2 & ->). destruct (tameWs_mid _ _ _ _ _ H) as (n3 & n4 & Hwt & _).
  destruct w as [g fin|a|]; simpl in Hc; try contradiction. apply tameW_run_inv in Hwt as [H2 _]. eapply tame_safe; eauto.
Qed.

(** ** All goroutines together *)

Lemma tameTs_mid m l1 t l2 : forall n, TameTs m n (l1 ++ t :: l2) ->
  exists n1 n2, TameT m n1 t /\ n1 + n2 <= n /\ forall n1' n3 t' new, TameT m n1' t' -> TameTs m n3 new -> TameTs m (n1' + n2 + n3) (l1 ++ t' :: l2 ++ new).
Proof.
  induction l1 as [|v l1 IH]; intros n H; simpl in H; destruct H as (a & b & H1 & H2 & H3).
  - exists a, b. split; auto. split; auto. intros n1' n3 t' new Ht Hn. exists n1', (b + n3). split; [lia|]. split; auto. apply tameTs_app; auto.
  - destruct (IH _ H3) as (n1 & n2 & H4 & H5 & H6). exists n1, (a + n2). split; auto. split; [lia|].
    intros n1' n3 t' new Ht Hn. simpl. exists a, (n1' + n2 + n3). split; [lia|]. split; auto.
Qed.

Definition isProg (t : thread) : bool := match t with TProg _ => true | _ => false end.
Definition noProg (l : list thread) : Prop := Forall (fun t => isProg t = false) l.

Lemma estep_groups :
  (forall c g c' g' new n, estep c g c' g' new n -> noProg new) /\
  (forall c w l c' w' new n, ewstep c w l c' w' new n -> noProg new).
Proof. apply estep_mut; intros; auto; try (constructor; fail); constructor; auto; constructor. Qed.

(** After any steps of all goroutines: the caller is where its own steps lead, the count of goroutines is within the bound, a
    goroutine that is left behind does not panic, and either a goroutine has panicked, or all have ended, or there is a next step. *)
Lemma system m N g c l n : TameTs m (N - n) (TProg g :: l) -> n <= N -> noProg l ->
  forall s', sruns (c, TProg g :: l, n) s' -> exists c' g' l' n', s' = (c', TProg g' :: l', n') /\
    runs chanCap c g c' g' /\ n' <= N /\ TameTs m (N - n') (TProg g' :: l') /\ noProg l'.
Proof.
  intros Ht Hn Hp s' Hr. remember (c, TProg g :: l, n) as s eqn:Es. revert c g l n Es Ht Hn Hp.
  induction Hr as [s|s s1 s2 Hnc Hst Hr IH]; intros c g l n -> Ht Hn Hp.
  - exists c, g, l, n. repeat split; auto. constructor.
  - inversion Hst as [c0 l1 t l2 n0 c' t' new k Htst E0 [E1 E2]]; subst.
    match goal with E : l1 ++ t :: l2 = _ |- _ => rename E into E1 end.
    destruct l1 as [|t1 l1]; simpl in E1; inversion E1; subst; clear E1.
    + inversion Htst as [? ? ? g' ? ? He|]; subst. destruct Ht as (a & b & Hab & Ha & Hb).
      destruct (proj1 (tame_step m) _ _ _ _ _ _ He _ Ha) as (Hc & b1 & b2 & H1 & H2 & H3).
      destruct (IH c' g' (l ++ new) (n + k)) as (c2 & g2 & l2 & n2 & -> & HR & H4 & H5 & H6); auto.
      * exists b1, (b + b2). split; [lia|]. split; auto. apply tameTs_app; auto.
      * lia.
      * apply Forall_app. split; auto. exact (proj1 estep_groups _ _ _ _ _ _ He).
      * exists c2, g2, l2, n2. repeat split; auto. econstructor; eauto.
        -- intros Hc1. apply Hnc. exists (TProg g). split; [left; auto|exact Hc1].
        -- eapply estep_gstep; eauto.
    + destruct Ht as (a & b & Hab & Ha & Hb). destruct (tameTs_mid _ _ _ _ _ Hb) as (n1 & n2 & Ht & Hle & Hre).
      destruct (tameT_step m _ _ _ _ _ _ _ Htst Ht) as (Hc & b1 & b2 & H1 & H2 & H3).
      assert (Hgr : isProg t = false) by (apply Forall_app in Hp as [_ Hp]; inversion Hp; auto).
      assert (c' = c).
      { destruct m; auto. exfalso. destruct t as [|ws sh ch]; [discriminate|]. eapply group_dead; eauto. }
      subst c'. destruct (IH c g (l1 ++ t' :: l2 ++ new) (n + k)) as (c2 & g2 & l3 & n3 & -> & HR & H4 & H5 & H6); auto.
      * exists a, (b1 + n2 + b2). split; [lia|]. split; auto.
      * lia.
      * apply Forall_app in Hp as [Hp1 Hp2]. inversion Hp2; subst. apply Forall_app. split; auto. constructor.
        -- inversion Htst; subst; auto; discriminate.
        -- apply Forall_app. split; auto. inversion Htst as [? ? ? ? ? ? He|? ? ? ? ? ? ? ? ? ? ? ? ? He]; subst; [exact (proj1 estep_groups _ _ _ _ _ _ He)|exact (proj2 estep_groups _ _ _ _ _ _ _ He)].
      * exists c2, g2, l3, n3. repeat split; auto.
Qed.

Lemma system_goes m N c l n : TameTs m N l -> (exists t, In t l /\ tcrashed t) \/ Forall tended l \/ exists s', sstep (c, l, n) s'.
Proof.
  revert N n. induction l as [|t l IH]; intros N n H; [right; left; constructor|].
  destruct H as (a & b & _ & Ha & Hb). destruct (thread_goes m a t Ha) as [He|[Hc|Hs]].
  - destruct (IH b n Hb) as [(x & Hx & Hc)|[Hall|(s' & Hs)]].
    + left. exists x. split; auto. right. auto.
    + right. left. constructor; auto.
    + right. right. inversion Hs; subst. eexists. apply (s_thread c (t :: l1)). eauto.
  - left. exists t. split; auto. left. auto.
  - right. right. destruct (Hs c) as (c' & t' & new & k & Hst). eexists. apply (s_thread c [] t l n). eauto.
Qed.

(** A dead group does not crash. *)
Lemma groups_safe m N l : TameTs m N l -> noProg l -> forall t, In t l -> ~ tcrashed t.
Proof.
  revert N. induction l as [|x l IH]; intros N H Hp t Ht; [contradiction|]. destruct H as (a & b & _ & Ha & Hb). inversion Hp; subst.
  destruct Ht as [<-|Ht]; [|eapply IH; eauto]. destruct m; [|eapply tameT_safe; eauto].
  destruct x as [|ws sh ch]; [discriminate|]. intros (w & Hin & Hc). destruct Ha as (_ & _ & Hz). specialize (Hz eq_refl).
  apply in_split in Hin as (l1 & l2 & ->). rewrite alive_mid in Hz. destruct w; simpl in Hc; try contradiction. simpl in Hz. lia.
Qed.

Theorem goroutines m N g : New m N g ->
  Acc sback (start g) /\
  forall s', sruns (start g) s' -> exists c' g' l n, s' = (c', TProg g' :: l, n) /\
    n <= N /\ runs chanCap None g c' g' /\ (scrashed s' -> crashed g') /\
    (crashed g' \/ Forall tended (TProg g' :: l) \/ exists s'', sstep s' s'').
Proof.
  intros (n0 & Hn & Ht). split; [apply all_end|]. intros s' Hr.
  destruct (system m N g None [] (fresh g)) with (s' := s') as (c' & g' & l & n & -> & HR & H1 & H2 & H3); auto.
  - exists n0, 0. split; [lia|]. split; auto. exact Logic.I.
  - lia.
  - constructor.
  - exists c', g', l, n. repeat split; auto.
    + intros (t & Hin & Hc). simpl in Hin. destruct Hin as [<-|Hin]; [exact Hc|]. exfalso.
      destruct H2 as (a & b & _ & _ & Hb). eapply groups_safe; eauto.
    + destruct (system_goes m _ c' _ n H2) as [(t & Hin & Hc)|Hs]; auto. left. destruct Hin as [<-|Hin]; [exact Hc|]. exfalso.
      destruct H2 as (a & b & _ & _ & Hb). eapply groups_safe; eauto.
Qed.

End Goroutines.

Arguments thread : clear implicits.
Arguments sys : clear implicits.
