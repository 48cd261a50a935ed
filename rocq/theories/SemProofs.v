(** * Semaphore programs: counting, termination, and independence of the schedule. *)
From Coq Require Import ZArith Lia List Bool Permutation.
From Verif Require Import Loop DenseJobs Reorder SemModel.
Import ListNotations.
Local Open Scope Z_scope.

Section proofs.
Context {T Act L V : Type}.
Variable teq : forall x y : T, {x = y} + {x <> y}.
Variable P : sys T Act L V.
Notation step := (sstep teq P).
Notation reach := (sreach teq P).
Notation cur := (cur P).
Lemma tupd_eq : forall {X} (f : T -> X) t x, tupd teq f t x t = x.
Proof. intros. unfold tupd. destruct (teq t t); congruence. Qed.
Lemma tupd_neq : forall {X} (f : T -> X) t x u, u <> t -> tupd teq f t x u = f u.
Proof. intros. unfold tupd. destruct (teq u t); congruence. Qed.
Lemma adv_le : forall (st : sstate T L V) t u, (pc st u <= adv teq st t u)%nat.
Proof. intros. unfold adv, tupd. destruct (teq u t); subst; lia. Qed.

(** ** Basic facts *)
Lemma cur_lt : forall (st : sstate T L V) t i, cur st t = Some i -> (pc st t < length (prog P t))%nat.
Proof. intros st t i E. apply nth_error_Some. unfold SemModel.cur in E. congruence. Qed.
Lemma pc_le : forall m0 st, reach m0 st -> forall t, (pc st t <= length (prog P t))%nat.
Proof.
  intros m0 st R. induction R as [|st st' R IH S]; intros t; [cbn; lia|]. specialize (IH t).
  destruct S; cbn [pc]; try exact IH; unfold adv, tupd; (destruct (teq t t0); [subst|exact IH]); match goal with E : cur _ _ = _ |- _ => apply cur_lt in E; lia end.
Qed.
Lemma pc_mono : forall st st', step st st' -> forall t, (pc st t <= pc st' t)%nat.
Proof. intros st st' S t. destruct S; cbn [pc]; try lia; apply adv_le. Qed.
Lemma joined : forall m0 st, reach m0 st -> forall t i u, In t (threads P) -> nth_error (prog P t) i = Some (IJoin u) -> (i < pc st t)%nat -> finished P st u.
Proof.
  intros m0 st R. induction R as [|st st' R IH S]; intros t i u It E Li; [cbn in Li; lia|].
  assert (X : finished P st u -> finished P st' u).
  { unfold finished. intros F. pose proof (pc_mono _ _ S u). pose proof (pc_le m0 st' (SRS _ _ _ _ _ R S) u). lia. }
  apply X. destruct (Nat.lt_ge_cases i (pc st t)) as [L1|L1]; [apply (IH t i u It E L1)|].
  destruct S; cbn [pc] in Li; try lia; unfold adv, tupd in Li; (destruct (teq t t0) as [->|NE]; [|lia]);
    assert (i = pc st t0) by lia; subst i; unfold SemModel.cur in *; try congruence.
Qed.
Lemma busy_none : forall m0 st, reach m0 st -> forall t, busy st t <> None -> In t (threads P) /\ exists a, cur st t = Some (IAct a).
Proof.
  intros m0 st R. induction R as [|st st' R IH S]; intros t B; [cbn in B; congruence|].
  destruct S; cbn [busy pc] in *; unfold SemModel.cur in *; cbn [pc].
  1,2,3: destruct (IH t B) as (I0 & a & E); split; [exact I0|]; exists a; unfold adv, tupd; destruct (teq t t0); [subst; congruence|exact E].
  - unfold tupd in B. destruct (teq t t0); [subst; eauto|auto].
  - unfold tupd in B. destruct (teq t t0); [congruence|]. destruct (IH t B) as (I0 & b & E). split; [exact I0|]. exists b. unfold adv, tupd. destruct (teq t t0); [congruence|exact E].
Qed.

(** ** Counting acquisitions and releases *)
Definition acq1 (s : Z) (i : instr T Act) : Z := match i with IAcq u => if u =? s then 1 else 0 | _ => 0 end.
Definition rel1 (s : Z) (i : instr T Act) : Z := match i with IRel u n => if u =? s then n else 0 | _ => 0 end.
Definition zsum {X} (f : X -> Z) (l : list X) : Z := fold_right (fun x a => f x + a) 0 l.
Lemma zsum_app : forall {X} (f : X -> Z) a b, zsum f (a ++ b) = zsum f a + zsum f b.
Proof. intros X f a b. induction a as [|x a IH]; [reflexivity|]. cbn [app zsum fold_right]. fold (zsum f (a ++ b)) (zsum f a). lia. Qed.
Lemma zsum_cons : forall {X} (f : X -> Z) x l, zsum f (x :: l) = f x + zsum f l.
Proof. reflexivity. Qed.
Lemma zsum_ext : forall {X} (f g : X -> Z) l, (forall x, In x l -> f x = g x) -> zsum f l = zsum g l.
Proof. intros X f g l H. induction l as [|x l IH]; [reflexivity|]. rewrite !zsum_cons, (H x (or_introl eq_refl)), IH; [reflexivity|]. intros y Iy. apply H. right. exact Iy. Qed.
Lemma zsum_0 : forall {X} (f : X -> Z) l, (forall x, In x l -> f x = 0) -> zsum f l = 0.
Proof. intros X f l H. induction l as [|x l IH]; [reflexivity|]. rewrite zsum_cons, (H x (or_introl eq_refl)), IH; [reflexivity|]. intros y Iy. apply H. right. exact Iy. Qed.
Lemma zsum_le : forall {X} (f g : X -> Z) l, (forall x, In x l -> f x <= g x) -> zsum f l <= zsum g l.
Proof. intros X f g l H. induction l as [|x l IH]; [cbn; lia|]. rewrite !zsum_cons. pose proof (H x (or_introl eq_refl)). assert (zsum f l <= zsum g l) by (apply IH; intros y Iy; apply H; right; exact Iy). lia. Qed.
Definition acqs (s : Z) (t : T) (p : nat) : Z := zsum (acq1 s) (firstn p (prog P t)).
Definition rels (s : Z) (t : T) (p : nat) : Z := zsum (rel1 s) (firstn p (prog P t)).
Lemma firstn_next : forall {X} (l : list X) p x, nth_error l p = Some x -> firstn (S p) l = firstn p l ++ [x].
Proof.
  intros X l. induction l as [|y l IH]; intros [|p] x E; cbn in *; try congruence. rewrite (IH p x E). reflexivity.
Qed.
Lemma acqs_next : forall s t p i, nth_error (prog P t) p = Some i -> acqs s t (S p) = acqs s t p + acq1 s i.
Proof. intros s t p i E. unfold acqs. rewrite (firstn_next _ _ _ E), zsum_app. cbn. lia. Qed.
Lemma rels_next : forall s t p i, nth_error (prog P t) p = Some i -> rels s t (S p) = rels s t p + rel1 s i.
Proof. intros s t p i E. unfold rels. rewrite (firstn_next _ _ _ E), zsum_app. cbn. lia. Qed.
Lemma zsum_upd : forall {X} (g : T -> X -> Z) f t x ts, NoDup ts -> In t ts -> zsum (fun u => g u (tupd teq f t x u)) ts = zsum (fun u => g u (f u)) ts + (g t x - g t (f t)).
Proof.
  intros X g f t x ts ND It. induction ts as [|u ts IH]; [destruct It|]. inversion ND as [|? ? N1 N2]; subst. rewrite !zsum_cons. destruct It as [->|It].
  - rewrite tupd_eq. rewrite (zsum_ext _ (fun u => g u (f u)) ts); [lia|]. intros u Iu. rewrite tupd_neq; [reflexivity|]. intros ->. contradiction.
  - rewrite IH by assumption. rewrite tupd_neq; [lia|]. intros ->. contradiction.
Qed.
Lemma sem_count : NoDup (threads P) -> forall m0 st, reach m0 st -> forall s,
  sem st s = zsum (fun t => rels s t (pc st t)) (threads P) - zsum (fun t => acqs s t (pc st t)) (threads P).
Proof.
  intros ND m0 st R. induction R as [|st st' R IH S]; intros s.
  - cbn [sinit sem pc]. rewrite !zsum_0; [reflexivity| |]; intros; unfold acqs, rels; reflexivity.
  - specialize (IH s).
    destruct S as [t u It E _|t u n It E|t u It E _|t a It E B|t a sn It E B]; unfold SemModel.cur in E; cbn [sem pc]; unfold adv; try exact IH;
      rewrite (zsum_upd (rels s) (pc st)), (zsum_upd (acqs s) (pc st)) by assumption; rewrite (acqs_next s t _ _ E), (rels_next s t _ _ E); cbn [acq1 rel1]; unfold zupd;
      rewrite ?(Z.eqb_sym s u); try (destruct (Z.eqb_spec u s); [subst|]); lia.
Qed.
Lemma sem_nonneg : (forall t s n, In t (threads P) -> In (IRel s n) (prog P t) -> 0 <= n) -> forall m0 st, reach m0 st -> forall s, 0 <= sem st s.
Proof.
  intros NR m0 st R. induction R as [|st st' R IH S]; intros s; [cbn; lia|]. specialize (IH s).
  destruct S as [t u It E Ps|t u n It E|t u It E _|t a It E B|t a sn It E B]; cbn [sem]; try exact IH; unfold zupd; destruct (Z.eqb_spec s u) as [->|]; try lia.
  unfold SemModel.cur in E. apply nth_error_In in E. specialize (NR _ _ _ It E). lia.
Qed.

(** ** Termination *)
Definition weight (st : sstate T L V) (t : T) : Z := 2 * (Z.of_nat (length (prog P t)) - Z.of_nat (pc st t)) - match busy st t with Some _ => 1 | None => 0 end.
Lemma weight_drop : NoDup (threads P) -> forall m0 st st', reach m0 st -> step st st' -> zsum (weight st') (threads P) < zsum (weight st) (threads P).
Proof.
  intros ND m0 st st' R S.
  assert (G : forall t, In t (threads P) -> weight st' t < weight st t -> (forall u, u <> t -> weight st' u = weight st u) -> zsum (weight st') (threads P) < zsum (weight st) (threads P)).
  { intros t It L1 O. revert ND It. generalize (threads P). intros ts ND It. induction ts as [|u ts IH]; [destruct It|]. inversion ND as [|? ? N1 N2]; subst. rewrite !zsum_cons. destruct It as [->|It].
    - rewrite (zsum_ext (weight st') (weight st) ts); [lia|]. intros u Iu. apply O. intros ->. contradiction.
    - specialize (IH N2 It). rewrite (O u); [lia|]. intros ->. contradiction. }
  pose proof (pc_le m0 st R) as PL.
  assert (BN : forall t i, In t (threads P) -> cur st t = Some i -> (forall a, i <> IAct a) -> busy st t = None).
  { intros t i It E NA. destruct (busy st t) eqn:B; [|reflexivity]. exfalso. destruct (busy_none m0 st R t) as (_ & a & E'); [congruence|]. apply (NA a). congruence. }
  destruct S as [t u It E Ps|t u n It E|t u It E FN|t a It E B|t a sn It E B]; apply (G t It); unfold weight; cbn [pc busy]; unfold adv;
    try (intros v Nv; rewrite !tupd_neq by assumption; reflexivity); try (intros v Nv; rewrite tupd_neq by assumption; reflexivity); rewrite ?tupd_eq;
    try (rewrite B); try lia; pose proof (cur_lt st t _ E); try (rewrite (BN t _ It E) by congruence); try lia.
Qed.
Lemma weight_nonneg : forall m0 st, reach m0 st -> 0 <= zsum (weight st) (threads P).
Proof.
  intros m0 st R. assert (G : forall t, 0 <= weight st t).
  { intros t. unfold weight. pose proof (pc_le m0 st R t). destruct (busy st t) eqn:B; [|lia].
    destruct (busy_none m0 st R t) as (_ & a & E); [congruence|]. apply cur_lt in E. lia. }
  induction (threads P) as [|t ts IH]; [cbn; lia|]. rewrite zsum_cons. specialize (G t). lia.
Qed.
Theorem terminates : NoDup (threads P) -> forall m0 st, reach m0 st -> Acc (fun y x => step x y) st.
Proof.
  intros ND m0 st R. remember (Z.to_nat (zsum (weight st) (threads P))) as k eqn:E. revert st R E. induction k as [k IH] using (well_founded_induction Wf_nat.lt_wf). intros st R ->.
  constructor. intros st' S. pose proof (weight_drop ND m0 st st' R S). pose proof (weight_nonneg m0 st' (SRS _ _ _ _ _ R S)).
  eapply IH; [|exact (SRS _ _ _ _ _ R S)|reflexivity]. lia.
Qed.

(** ** Progress *)
Definition blocked (st : sstate T L V) (t : T) : Prop :=
  match cur st t with None => True | Some (IAcq s) => sem st s <= 0 | Some (IJoin u) => ~ finished P st u | _ => False end.
Lemma step_or_blocked : forall st, (exists st', step st st') \/ forall t, In t (threads P) -> blocked st t.
Proof.
  intros st. assert (G : forall ts, (forall t, In t ts -> In t (threads P)) -> (exists st', step st st') \/ forall t, In t ts -> blocked st t).
  { induction ts as [|t ts IH]; intros SUB; [right; intros t []|]. destruct IH as [E|B]; [intros u Iu; apply SUB; right; exact Iu|left; exact E|].
    assert (It := SUB t (or_introl eq_refl)). assert (H : (exists st', step st st') \/ blocked st t).
    { unfold blocked. destruct (cur st t) as [[s|s n|a|u]|] eqn:E; [| | | |right; exact I].
      - destruct (Z_lt_le_dec 0 (sem st s)) as [L1|L1]; [left|right; exact L1]. eexists. eapply SAcq; eassumption.
      - left. eexists. eapply SRel; eassumption.
      - left. destruct (busy st t) eqn:BB; eexists; [eapply SEnd; eassumption|eapply SBegin; eassumption].
      - destruct (Nat.eq_dec (pc st u) (length (prog P u))) as [F|F]; [left; eexists; eapply SJoin; eassumption|right; exact F]. }
    destruct H as [E|H]; [left; exact E|]. right. intros u [<-|Iu]; [exact H|apply B; exact Iu]. }
  apply G. auto.
Qed.
Lemma blocked_cases : forall m0 st t, reach m0 st -> blocked st t -> finished P st t \/ (exists s, cur st t = Some (IAcq s) /\ sem st s <= 0) \/ (exists u, cur st t = Some (IJoin u) /\ ~ finished P st u).
Proof.
  intros m0 st t R B. unfold blocked in B. destruct (cur st t) as [[s|s n|a|u]|] eqn:E; try contradiction; [right; left; eauto|right; right; eauto|].
  left. unfold SemModel.cur in E. apply nth_error_None in E. pose proof (pc_le m0 st R t). unfold finished. lia.
Qed.

(** ** Independence of the schedule *)
Definition finished_act (st : sstate T L V) (a : Act) : Prop := exists t i, In t (threads P) /\ nth_error (prog P t) i = Some (IAct a) /\ (i < pc st t)%nat.
Definition begun (st : sstate T L V) (a : Act) : Prop := finished_act st a \/ exists t, executing P st t a.
Variable canon : list Act.
Hypothesis CND : NoDup canon.
Hypothesis OCC : forall t i u j a, In t (threads P) -> In u (threads P) -> nth_error (prog P t) i = Some (IAct a) -> nth_error (prog P u) j = Some (IAct a) -> t = u /\ i = j.
Hypothesis CIN : forall a, In a canon <-> exists t, In t (threads P) /\ In (IAct a) (prog P t).
Definition framed (a : Act) : Prop := forall m m', (forall l, rd P a l = true -> m l = m' l) -> forall l, wr P a l = true -> eff P a m l = eff P a m' l.
Hypothesis FRAME : forall a, In a canon -> framed a.
Variable m0 : L -> V.
Hypothesis KEY : forall st a b, reach m0 st -> begun st b -> before canon a b -> sconflict P a b -> finished_act st a.

Lemma not_both : forall st t a, executing P st t a -> ~ finished_act st a.
Proof using OCC.
  intros st t a (It & E & _) (u & i & Iu & E' & Li). unfold SemModel.cur in E. destruct (OCC _ _ _ _ _ It Iu E E') as [<- <-]. lia.
Qed.
Lemma conflict_sym : forall a b, sconflict P a b -> sconflict P b a.
Proof. intros a b (l & [[A [B|B]]|[A B]]); exists l; auto. Qed.
Lemma executing_in : forall st t a, executing P st t a -> In a canon.
Proof using CIN. intros st t a (It & E & _). apply CIN. exists t. split; [exact It|]. eapply nth_error_In. exact E. Qed.
Theorem no_race : forall st, reach m0 st -> ~ race P st.
Proof using OCC CIN KEY CND.
  intros st R (t & u & a & b & NE & Xa & Xb & C).
  assert (Nab : a <> b). { intros <-. destruct Xa as (It & Ea & _), Xb as (Iu & Eb & _). destruct (OCC _ _ _ _ _ It Iu Ea Eb). congruence. }
  destruct (before_total canon a b (executing_in _ _ _ Xa) (executing_in _ _ _ Xb) Nab) as [B|B].
  - apply (not_both st t a Xa). apply (KEY st a b R); [right; eauto|exact B|exact C].
  - apply (not_both st u b Xb). apply (KEY st b a R); [right; eauto|exact B|apply conflict_sym; exact C].
Qed.

Lemma sexec_ext : forall a m m', framed a -> (forall l, m l = m' l) -> forall l, sexec P a m l = sexec P a m' l.
Proof using. intros a m m' FR E l. unfold sexec. destruct (wr P a l) eqn:W; [|apply E]. apply FR; [intros; apply E|exact W]. Qed.
Lemma srun_ext : forall ls m m', (forall a, In a ls -> framed a) -> (forall l, m l = m' l) -> forall l, srun P ls m l = srun P ls m' l.
Proof using. induction ls as [|a ls IH]; intros m m' FR E l; [apply E|]. cbn. apply IH; [intros c Ic; apply FR; right; exact Ic|]. apply sexec_ext; [apply FR; left; reflexivity|exact E]. Qed.
Lemma sswap : forall a b m l, framed a -> framed b -> ~ sconflict P a b -> sexec P b (sexec P a m) l = sexec P a (sexec P b m) l.
Proof using.
  intros a b m l FA FB N.
  assert (NA : forall l, wr P a l = true -> rd P b l = true -> False) by (intros x A B; apply N; exists x; auto).
  assert (NB : forall l, wr P b l = true -> rd P a l = true -> False) by (intros x A B; apply N; exists x; auto).
  assert (NC : forall l, wr P a l = true -> wr P b l = true -> False) by (intros x A B; apply N; exists x; auto).
  unfold sexec at 1 3. destruct (wr P b l) eqn:Wb, (wr P a l) eqn:Wa.
  - exfalso. eauto.
  - unfold sexec at 2. rewrite Wb. apply FB; [|exact Wb]. intros x X. unfold sexec. destruct (wr P a x) eqn:Wx; [exfalso; eauto|reflexivity].
  - unfold sexec at 1. rewrite Wa. symmetry. apply FA; [|exact Wa]. intros x X. unfold sexec. destruct (wr P b x) eqn:Wx; [exfalso; eauto|reflexivity].
  - unfold sexec. rewrite Wa, Wb. reflexivity.
Qed.
Lemma srun_app : forall a b m, srun P (a ++ b) m = srun P b (srun P a m).
Proof. intros. unfold srun. apply fold_left_app. Qed.
Lemma smove_front : forall p q a, (forall c, In c (a :: p ++ q) -> framed c) -> (forall b, In b p -> ~ sconflict P b a) -> forall m l, srun P (p ++ a :: q) m l = srun P (a :: p ++ q) m l.
Proof using.
  induction p as [|b p IH]; intros q a FR N m l; [reflexivity|]. cbn [app]. change (srun P (p ++ a :: q) (sexec P b m) l = srun P (b :: p ++ q) (sexec P a m) l).
  rewrite IH by (intros c Ic; first [apply N; right; exact Ic | apply FR; destruct Ic as [Ic|Ic]; [left; exact Ic|right; right; exact Ic]]). change (srun P (p ++ q) (sexec P a (sexec P b m)) l = srun P (p ++ q) (sexec P b (sexec P a m)) l).
  apply srun_ext; [intros c Ic; apply FR; right; right; exact Ic|]. intros x. apply sswap; [apply FR; right; left; reflexivity|apply FR; left; reflexivity|]. apply N. left. reflexivity.
Qed.
Theorem srun_reorder : forall ks ks', (forall a, In a ks -> framed a) -> NoDup ks -> NoDup ks' -> (forall x, In x ks <-> In x ks') ->
  (forall a b, before ks a b -> sconflict P a b -> before ks' a b) -> forall m l, srun P ks m l = srun P ks' m l.
Proof using.
  intros ks. induction ks as [|a t IH]; intros ks' FR ND ND' IN B m l.
  - destruct ks' as [|b ks']; [reflexivity|]. exfalso. apply (IN b). left. reflexivity.
  - inversion ND as [|? ? N1 N2]; subst. destruct (in_split a ks') as (p & q & E); [apply IN; left; reflexivity|]. subst ks'.
    assert (NP : forall b, In b p -> ~ sconflict P b a).
    { intros b Ib C. assert (NE : b <> a). { intros ->. apply NoDup_remove_2 in ND'. apply ND'. apply in_or_app. left. exact Ib. }
      assert (It : In b t). { destruct (proj2 (IN b)) as [E|E]; [apply in_or_app; left; exact Ib|congruence|exact E]. }
      destruct (B a b) as (l1 & l2 & E & I2); [exists [], t; auto|apply conflict_sym; exact C|].
      assert (EE : forall l1 p : list Act, p ++ a :: q = l1 ++ a :: l2 -> ~ In a p -> ~ In a l1 -> p = l1 /\ q = l2).
      { clear. induction l1 as [|y l1 IH]; intros [|z p] E Np Nl; pose proof (f_equal (hd a) E) as E1; pose proof (f_equal (@tl Act) E) as E2; cbn in E1, E2; clear E; subst.
        - auto.
        - exfalso. apply Np. left. reflexivity.
        - exfalso. apply Nl. left. reflexivity.
        - destruct (IH p E2) as [A C]; [intros Y; apply Np; right; exact Y|intros Y; apply Nl; right; exact Y|]. subst. auto. }
      destruct (EE l1 p E) as [EA EC].
      - apply NoDup_remove_2 in ND'. intros Y. apply ND'. apply in_or_app. left. exact Y.
      - rewrite E in ND'. apply NoDup_remove_2 in ND'. intros Y. apply ND'. apply in_or_app. left. exact Y.
      - subst. apply NoDup_remove_1 in ND'. revert Ib I2 ND'. clear. induction l1 as [|y l1 IH]; intros I1 I2 ND; [destruct I1|]. cbn in ND. inversion ND as [|? ? A C]; subst.
        destruct I1 as [->|I1]; [apply A; apply in_or_app; right; exact I2|auto]. }
    assert (FP : forall c, In c (a :: p ++ q) -> framed c). { intros c Ic. apply FR. apply IN. apply in_or_app. destruct Ic as [->|Ic]; [right; left; reflexivity|]. apply in_app_or in Ic as [Ic|Ic]; [left; exact Ic|right; right; exact Ic]. }
    rewrite (smove_front p q a FP NP). change (srun P t (sexec P a m) l = srun P (p ++ q) (sexec P a m) l). apply IH; [intros c Ic; apply FR; right; exact Ic|exact N2|eapply NoDup_remove_1; exact ND'| |].
    + intros y. split; intros Iy.
      * assert (y <> a) by (intros ->; contradiction). destruct (in_app_or p (a :: q) y) as [I1|[I1|I1]]; [apply IN; right; exact Iy|apply in_or_app; auto|congruence|apply in_or_app; auto].
      * destruct (proj2 (IN y)) as [E|E]; [apply in_app_or in Iy as [I1|I1]; apply in_or_app; cbn; auto| |exact E]. subst y. apply NoDup_remove_2 in ND'. contradiction.
    + intros c b (l1 & l2 & E & I2) C. destruct (B c b) as (m1 & m2 & E' & I3); [exists (a :: l1), l2; cbn; rewrite E; auto|exact C|].
      assert (Na : c <> a) by (intros ->; apply N1; rewrite E; apply in_or_app; right; left; reflexivity).
      assert (Nb : b <> a) by (intros ->; apply N1; rewrite E; apply in_or_app; right; right; exact I2).
      clear - E' I3 Na Nb. revert m1 E'. induction p as [|y p IH]; intros [|z m1] E'; pose proof (f_equal (hd a) E') as E1; pose proof (f_equal (@tl Act) E') as E2; cbn in E1, E2; clear E'; subst.
      * congruence.
      * exists m1, m2. auto.
      * cbn [app]. assert (I3' : In b (p ++ q)). { apply in_app_or in I3 as [I3|[I3|I3]]; [apply in_or_app; auto|congruence|apply in_or_app; auto]. } exists [], (p ++ q). auto.
      * destruct (IH m1 E2) as (n1 & n2 & E & I4). exists (z :: n1), n2. cbn. rewrite E. auto.
Qed.

(** the finished actions, in the order in which they ended *)
Definition trace_inv (st : sstate T L V) (ls : list Act) : Prop :=
  NoDup ls /\ (forall a, In a ls <-> finished_act st a) /\ (forall l, memo st l = srun P ls m0 l) /\
  (forall t a seen, In t (threads P) -> cur st t = Some (IAct a) -> busy st t = Some seen -> forall l, rd P a l = true -> seen l = memo st l) /\
  (forall a b, In b ls -> before canon a b -> sconflict P a b -> before ls a b).
Lemma fin_adv : forall st t i bz sm mm, In t (threads P) -> cur st t = Some i -> (forall a, i <> IAct a) ->
  forall a, finished_act (SState (adv teq st t) bz sm mm) a <-> finished_act st a.
Proof.
  intros st t i bz sm mm It E NA a. split; intros (u & k & Iu & Ek & Lk); cbn [pc] in *; exists u, k; (split; [exact Iu|]; split; [exact Ek|]).
  - unfold adv, tupd in Lk. destruct (teq u t) as [->|]; [|exact Lk]. destruct (Nat.eq_dec k (pc st t)) as [->|]; [|lia].
    exfalso. apply (NA a). unfold SemModel.cur in E. congruence.
  - pose proof (adv_le st t u). cbn [pc]. lia.
Qed.
Lemma trace_ok : forall st, reach m0 st -> exists ls, trace_inv st ls.
Proof using OCC CIN KEY CND FRAME.
  intros st R. induction R as [|st st' R [ls (I1 & I2 & I3 & I4 & I5)] S].
  - exists []. split; [constructor|]. split; [intros a; split; [intros []|intros (t & i & _ & _ & Li); cbn in Li; lia]|].
    split; [reflexivity|]. split; [intros t a seen _ _ B; discriminate|intros a b []].
  - assert (R' := SRS _ _ _ _ _ R S).
    assert (STAY : forall t i sm mm, In t (threads P) -> cur st t = Some i -> (forall a, i <> IAct a) -> (forall l, mm l = memo st l) ->
              trace_inv (SState (adv teq st t) (busy st) sm mm) ls).
    { intros t i sm mm It E NA EM. split; [exact I1|]. split; [intros a; rewrite (fin_adv st t i) by assumption; apply I2|].
      split; [intros l; cbn [memo]; rewrite EM; apply I3|]. split; [|exact I5].
      intros u a seen Iu Eu Bu l Rl. cbn [memo busy] in *. rewrite EM. apply (I4 u a seen Iu); [|exact Bu|exact Rl].
      unfold SemModel.cur in *. cbn [pc] in Eu. unfold adv, tupd in Eu. destruct (teq u t) as [->|]; [|exact Eu].
      destruct (busy_none m0 st R t) as (_ & c & Ec); [congruence|]. exfalso. apply (NA c). unfold SemModel.cur in Ec. congruence. }
    destruct S as [t u It E Ps|t u n It E|t u It E FN|t a It E B|t a sn It E B].
    + exists ls. apply (STAY t _ _ _ It E); [congruence|reflexivity].
    + exists ls. apply (STAY t _ _ _ It E); [congruence|reflexivity].
    + exists ls. apply (STAY t _ _ _ It E); [congruence|reflexivity].
    + exists ls. split; [exact I1|]. split; [exact I2|]. split; [exact I3|]. split; [|exact I5].
      intros u b seen Iu Eu Bu l Rl. cbn [memo busy pc] in *. unfold SemModel.cur in *. cbn [pc] in Eu. unfold tupd in Bu. destruct (teq u t) as [->|]; [|apply (I4 u b seen Iu Eu Bu l Rl)].
      inversion Bu; subst. reflexivity.
    + assert (Xa : executing P st t a) by (split; [exact It|]; split; [exact E|congruence]).
      assert (NF := not_both st t a Xa).
      assert (FA : forall c, finished_act (SState (adv teq st t) (tupd teq (busy st) t None) (sem st) (fun l => if wr P a l then eff P a sn l else memo st l)) c <-> finished_act st c \/ c = a).
      { intros c. split.
        - intros (u & k & Iu & Ek & Lk). cbn [pc] in Lk. unfold adv, tupd in Lk. destruct (teq u t) as [->|]; [|left; exists u, k; auto].
          destruct (Nat.eq_dec k (pc st t)) as [->|]; [right; unfold SemModel.cur in E; congruence|left; exists t, k; split; [exact It|split; [exact Ek|lia]]].
        - intros [(u & k & Iu & Ek & Lk)| ->].
          + exists u, k. split; [exact Iu|]. split; [exact Ek|]. cbn [pc]. pose proof (adv_le st t u). lia.
          + exists t, (pc st t). split; [exact It|]. split; [exact E|]. cbn [pc]. unfold adv. rewrite tupd_eq. lia. }
      assert (EX : forall l, (if wr P a l then eff P a sn l else memo st l) = srun P (ls ++ [a]) m0 l).
      { intros l. rewrite srun_app. cbn. unfold sexec at 1. destruct (wr P a l) eqn:W; [|apply I3]. apply FRAME; [apply (executing_in _ _ _ Xa)| |exact W]. intros x X. rewrite <- I3. apply (I4 t a sn It E B x X). }
      exists (ls ++ [a]). split; [|split; [|split; [|split]]].
      * apply (Permutation_NoDup (Permutation_cons_append ls a)). constructor; [|exact I1]. intros I0. apply NF. apply I2. exact I0.
      * intros c. rewrite FA, in_app_iff, I2. cbn. intuition congruence.
      * exact EX.
      * intros u c seen Iu Ec Bc l Rl. cbn [memo busy] in *. unfold tupd in Bc. destruct (teq u t) as [->|NE]; [discriminate|].
        unfold SemModel.cur in *. cbn [pc] in Ec. unfold adv in Ec. rewrite tupd_neq in Ec by exact NE.
        rewrite (I4 u c seen Iu Ec Bc l Rl). destruct (wr P a l) eqn:W; [|reflexivity]. exfalso. apply (no_race st R). exists t, u, a, c. split; [congruence|].
        split; [exact Xa|]. split; [split; [exact Iu|]; split; [exact Ec|congruence]|]. exists l. left. auto.
      * intros c d Id B' C. apply in_app_or in Id as [Id|[Ed|[]]].
        -- destruct (I5 c d Id B' C) as (l1 & l2 & -> & I0). exists l1, (l2 ++ [a]). rewrite <- app_assoc. split; [reflexivity|apply in_or_app; auto].
        -- subst d. assert (Fc : finished_act st c) by (apply (KEY st c a R); [right; eauto|exact B'|exact C]).
           apply I2 in Fc. apply in_split in Fc as (l1 & l2 & ->). exists l1, (l2 ++ [a]). rewrite <- app_assoc. split; [reflexivity|apply in_or_app; right; left; reflexivity].
Qed.
Theorem final_memory : forall st, reach m0 st -> sfinal P st -> forall l, memo st l = srun P canon m0 l.
Proof using OCC CIN KEY CND FRAME.
  intros st R FN l. destruct (trace_ok st R) as (ls & I1 & I2 & I3 & _ & I5). rewrite I3. symmetry.
  assert (IN : forall x, In x canon <-> In x ls).
  { intros x. rewrite I2, CIN. split.
    - intros (t & It & Ix). apply In_nth_error in Ix as (i & Ei). exists t, i. split; [exact It|]. split; [exact Ei|]. rewrite (FN t It). apply nth_error_Some. congruence.
    - intros (t & i & It & Ei & _). exists t. split; [exact It|]. eapply nth_error_In. exact Ei. }
  apply srun_reorder; [exact FRAME|exact CND|exact I1|exact IN|]. intros a b B C. apply I5; [|exact B|exact C].
  apply IN. destruct B as (l1 & l2 & -> & I0). apply in_or_app. right. right. exact I0.
Qed.
End proofs.
