(** * Property C18: histories of memory views. *)
From Coq Require Import ZArith Lia Bool List.
From Verif Require Import CInt MemModel MemHist.
Import ListNotations.
Open Scope Z_scope.

(** ** Specification *)
(** number of live views that refer to chunk c *)
Definition refers (c : nat) (o : option mview) : bool :=
  match o with
  | Some v => match mv_chunk v with Some c' => (c' =? c)%nat | None => false end
  | None => false
  end.
Fixpoint nviews (c : nat) (vs : list (option mview)) : Z :=
  match vs with [] => 0 | o :: r => (if refers c o then 1 else 0) + nviews c r end.
(** documented precondition of the sub-view constructor that the code does not check *)
Definition sane (o : vop) : Prop := match o with VSub _ off size => 0 <= off /\ 0 <= size | _ => True end.
(** every operation names live views *)
Fixpoint live_ops (ops : list vop) (s : vstate) : Prop :=
  match ops with
  | [] => True
  | o :: r =>
    (forall i, In i (match o with
                     | VCopy i | VMove i | VSub i _ _ | VDestroy i => [i]
                     | VAssign i j | VMoveAssign i j => [i; j]
                     | _ => [] end) -> exists v, nth_error (vs_views s) i = Some (Some v)) /\
    forall s', vstep s o = Ok s' -> live_ops r s'
  end.

(** ** Proofs *)
Lemma nth_upd : forall A (l : list A) i j x, nth_error (upd l i x) j =
  if (i =? j)%nat then (match nth_error l i with Some _ => Some x | None => None end) else nth_error l j.
Proof.
  induction l as [|a l IH]; intros i j x; cbn.
  - destruct i, j; cbn; try reflexivity; destruct (i =? j)%nat; reflexivity.
  - destruct i, j; cbn; try reflexivity. apply IH.
Qed.
Lemma length_upd : forall A (l : list A) i x, length (upd l i x) = length l.
Proof. induction l as [|a l IH]; intros [|i] x; cbn; auto. Qed.
Definition ind (c : nat) (o : option mview) : Z := if refers c o then 1 else 0.
Lemma nviews_upd : forall c vs i o x, nth_error vs i = Some o ->
  nviews c (upd vs i x) = nviews c vs - ind c o + ind c x.
Proof.
  induction vs as [|a vs IH]; intros [|i] o x H; cbn in *; try discriminate.
  - injection H as ->. unfold ind. lia.
  - rewrite (IH _ _ _ H). lia.
Qed.
Lemma nviews_app : forall c vs x, nviews c (vs ++ [x]) = nviews c vs + ind c x.
Proof. induction vs; intros; cbn; [unfold ind; lia|]. rewrite IHvs. lia. Qed.
Lemma nviews_nonneg : forall c vs, 0 <= nviews c vs.
Proof. induction vs as [|a vs IH]; cbn; [lia|]. destruct (refers c a); lia. Qed.
Lemma nviews_ge : forall c vs i o, nth_error vs i = Some o -> ind c o <= nviews c vs.
Proof.
  induction vs as [|a vs IH]; intros [|i] o H; cbn in *; try discriminate.
  - injection H as ->. unfold ind. pose proof (nviews_nonneg c vs). lia.
  - pose proof (IH _ _ H). destruct (refers c a); lia.
Qed.

Definition frees_of (k : rchunk) : Z := if ck_allocated (rc_chunk k) && (rc_uses k =? 0) then 1 else 0.
(** use counts are f, and exactly the unused library-owned chunks have been freed, once *)
Definition RC (cs : list rchunk) (f : nat -> Z) : Prop :=
  forall c k, nth_error cs c = Some k -> rc_uses k = f c /\ rc_frees k = frees_of k.
Definition bump (n : option nat) (d : Z) (f : nat -> Z) (c : nat) : Z :=
  f c + match n with Some m => if (m =? c)%nat then d else 0 | None => 0 end.
Lemma RC_ext : forall cs f g, (forall c, f c = g c) -> RC cs f -> RC cs g.
Proof. intros cs f g E H c k Hk. rewrite <- E. apply H. exact Hk. Qed.

Definition known (cs : list rchunk) (f : nat -> Z) (n : option nat) : Prop :=
  forall c, n = Some c -> (c < length cs)%nat /\ 0 < f c.
Lemma map_upd_same : forall (cs : list rchunk) n k k', nth_error cs n = Some k -> rc_chunk k' = rc_chunk k ->
  map rc_chunk (upd cs n k') = map rc_chunk cs.
Proof.
  induction cs as [|a cs IH]; intros [|n] k k' H E; cbn in *; try discriminate.
  - injection H as ->. rewrite E. reflexivity.
  - f_equal. eapply IH; eassumption.
Qed.
Lemma retain_ok : forall cs f n, RC cs f -> known cs f n ->
  exists cs', retain n cs = Ok cs' /\ RC cs' (bump n 1 f) /\ map rc_chunk cs' = map rc_chunk cs.
Proof.
  intros cs f [c|] H K; cbn.
  - destruct (K c eq_refl) as [L P]. destruct (nth_error cs c) as [k|] eqn:E; [|apply nth_error_None in E; lia].
    eexists. split; [reflexivity|]. split.
    + intros c' k'. rewrite nth_upd, E. destruct (Nat.eqb_spec c c') as [<-|Ne].
      * intros [= <-]. destruct (H c k E) as [H1 H2]. cbn. unfold bump, frees_of in *. rewrite Nat.eqb_refl. cbn.
        split; [lia|]. rewrite H2. rewrite (proj2 (Z.eqb_neq (rc_uses k) 0)), (proj2 (Z.eqb_neq (rc_uses k + 1) 0)) by lia. reflexivity.
      * intros Hk. unfold bump. rewrite (proj2 (Nat.eqb_neq _ _) Ne), Z.add_0_r. apply H. exact Hk.
    + eapply map_upd_same; [exact E|reflexivity].
  - exists cs. split; [reflexivity|]. split; [|reflexivity]. eapply RC_ext; [|exact H]. intros. unfold bump. lia.
Qed.
Lemma release_ok : forall cs f n, RC cs f -> known cs f n ->
  exists cs', release n cs = Ok cs' /\ RC cs' (bump n (-1) f) /\ map rc_chunk cs' = map rc_chunk cs.
Proof.
  intros cs f [c|] H K; cbn.
  - destruct (K c eq_refl) as [L P]. destruct (nth_error cs c) as [k|] eqn:E; [|apply nth_error_None in E; lia].
    destruct (H c k E) as [H1 H2]. rewrite (proj2 (Z.leb_gt (rc_uses k) 0)) by lia.
    eexists. split; [reflexivity|]. split.
    + intros c' k'. rewrite nth_upd, E. destruct (Nat.eqb_spec c c') as [<-|Ne].
      * intros [= <-]. unfold bump. rewrite Nat.eqb_refl. unfold frees_of in *.
        rewrite (proj2 (Z.eqb_neq (rc_uses k) 0)) in H2 by lia. rewrite andb_false_r in H2.
        destruct (Z.eqb_spec (rc_uses k - 1) 0) as [Z0|Z0]; cbn.
        -- split; [lia|]. rewrite (proj2 (Z.eqb_eq _ _) Z0), andb_true_r, H2. destruct (ck_allocated (rc_chunk k)); reflexivity.
        -- split; [lia|]. rewrite (proj2 (Z.eqb_neq _ _) Z0), andb_false_r. exact H2.
      * intros Hk. unfold bump. rewrite (proj2 (Nat.eqb_neq _ _) Ne), Z.add_0_r. apply H. exact Hk.
    + eapply map_upd_same; [exact E|]. destruct (_ =? 0); reflexivity.
  - exists cs. split; [reflexivity|]. split; [|reflexivity]. eapply RC_ext; [|exact H]. intros. unfold bump. lia.
Qed.

(** a view inside its chunk *)
Definition view_ok (h : heap) (v : mview) : Prop :=
  0 <= mv_size v /\
  match mv_chunk v with
  | None => True
  | Some c => exists k, nth_error h c = Some k /\ 0 <= mv_off v /\ mv_off v + mv_size v <= ck_size k
  end.
Record Inv (s : vstate) : Prop := {
  iv_rc : RC (vs_chunks s) (fun c => nviews c (vs_views s));
  iv_views : forall i v, nth_error (vs_views s) i = Some (Some v) -> view_ok (vs_heap s) v
}.

Lemma view_known : forall s i v, Inv s -> nth_error (vs_views s) i = Some (Some v) ->
  known (vs_chunks s) (fun c => nviews c (vs_views s)) (mv_chunk v).
Proof.
  intros s i v [I1 I2] E c Hc. destruct (I2 i v E) as [_ V]. rewrite Hc in V. destruct V as (k & N & _).
  split.
  - apply nth_error_Some_length in N || (assert (X : nth_error (vs_heap s) c <> None) by congruence; apply nth_error_Some in X; unfold vs_heap in X; rewrite map_length in X; exact X).
  - pose proof (nviews_ge c _ _ _ E) as G. unfold ind, refers in G. rewrite Hc, Nat.eqb_refl in G. lia.
Qed.
Lemma bump_ind : forall n d f c v, mv_chunk v = n -> bump n d f c = f c + d * ind c (Some v).
Proof. intros n d f c v <-. unfold bump, ind, refers. destruct (mv_chunk v) as [m|]; [destruct (m =? c)%nat; lia|lia]. Qed.
Lemma ind_le : forall c o, 0 <= ind c o <= 1.
Proof. intros. unfold ind. destruct (refers c o); lia. Qed.

Lemma adopt_same : forall s, adopt (vs_chunks s) (vs_heap s) = vs_chunks s.
Proof.
  intros s. unfold adopt, vs_heap. rewrite skipn_all2; [apply app_nil_r|]. rewrite map_length. lia.
Qed.
Lemma adopt_one : forall s k, adopt (vs_chunks s) (vs_heap s ++ [k]) = vs_chunks s ++ [RChunk k 1 0].
Proof.
  intros s k. unfold adopt, vs_heap.
  rewrite skipn_app, map_length, Nat.sub_diag. rewrite skipn_all2 by (rewrite map_length; lia). reflexivity.
Qed.
Lemma nviews_fresh : forall s c, Inv s -> (length (vs_chunks s) <= c)%nat -> nviews c (vs_views s) = 0.
Proof.
  intros s c [_ I2] Hc. assert (G : forall i v, nth_error (vs_views s) i = Some (Some v) -> refers c (Some v) = false).
  { intros i v E. destruct (I2 i v E) as [_ V]. cbn. destruct (mv_chunk v) as [m|]; [|reflexivity]. destruct V as (k & N & _).
    assert (X : nth_error (vs_heap s) m <> None) by congruence. apply nth_error_Some in X. unfold vs_heap in X. rewrite map_length in X.
    apply Nat.eqb_neq. lia. }
  revert G. generalize (vs_views s). induction l as [|o l IH]; intros G; cbn; [reflexivity|].
  rewrite IH.
  - destruct o as [v|]; [rewrite (G 0%nat v eq_refl)|]; reflexivity.
  - intros i v E. apply (G (S i) v E).
Qed.
Lemma heap_grow : forall h k v, view_ok h v -> view_ok (h ++ [k]) v.
Proof.
  intros h k v [A B]. split; [exact A|]. destruct (mv_chunk v); [|exact I]. destruct B as (k' & N & O).
  exists k'. split; [|exact O]. rewrite nth_error_app1; [exact N|]. apply nth_error_Some. congruence.
Qed.
(** adding a view on a new chunk *)
Lemma inv_new_chunk : forall s k size, Inv s -> 0 <= size -> ck_size k = size ->
  Inv (VState (vs_views s ++ [Some (MView (Some (length (vs_heap s))) 0 size)]) (vs_chunks s ++ [RChunk k 1 0])).
Proof.
  intros s k size I Hs Hk. pose proof I as [I1 I2]. assert (LH : length (vs_heap s) = length (vs_chunks s)) by (unfold vs_heap; apply map_length).
  constructor; cbn [vs_views vs_chunks].
  - intros c r. rewrite nviews_app. destruct (Nat.lt_ge_cases c (length (vs_chunks s))) as [L|L].
    + rewrite nth_error_app1 by exact L. intros E. destruct (I1 c r E) as [A B]. split; [|exact B].
      unfold ind. cbn. rewrite (proj2 (Nat.eqb_neq _ _)) by lia. lia.
    + rewrite nth_error_app2 by exact L. destruct (c - length (vs_chunks s))%nat as [|n] eqn:En; cbn.
      * intros [= <-]. assert (c = length (vs_chunks s)) by lia. subst c. unfold frees_of. cbn. rewrite andb_false_r.
        rewrite (nviews_fresh s _ I (Nat.le_refl _)). unfold ind. cbn. rewrite LH, Nat.eqb_refl. split; reflexivity.
      * destruct n; discriminate.
  - intros i v. unfold vs_heap. cbn [vs_chunks]. rewrite map_app. cbn [map rc_chunk].
    destruct (Nat.lt_ge_cases i (length (vs_views s))) as [L|L].
    + rewrite nth_error_app1 by exact L. intros E. apply heap_grow. apply (I2 i v E).
    + rewrite nth_error_app2 by exact L. destruct (i - length (vs_views s))%nat as [|n]; cbn; [|destruct n; discriminate].
      intros [= <-]. split; [exact Hs|]. cbn [mv_chunk]. exists k. split.
      * rewrite nth_error_app2 by lia. rewrite Nat.sub_diag. reflexivity.
      * cbn. lia.
Qed.
(** adding a view, chunks changed to match *)
Lemma inv_push : forall s v cs, Inv s -> view_ok (vs_heap s) v -> map rc_chunk cs = vs_heap s ->
  RC cs (bump (mv_chunk v) 1 (fun c => nviews c (vs_views s))) -> Inv (VState (vs_views s ++ [Some v]) cs).
Proof.
  intros s v cs [I1 I2] V H R. constructor; cbn [vs_views vs_chunks].
  - eapply RC_ext; [|exact R]. intros c. rewrite (bump_ind _ _ _ _ v eq_refl), nviews_app. lia.
  - intros i w. unfold vs_heap. cbn [vs_chunks]. rewrite H.
    destruct (Nat.lt_ge_cases i (length (vs_views s))) as [L|L].
    + rewrite nth_error_app1 by exact L. apply I2.
    + rewrite nth_error_app2 by exact L. destruct (i - length (vs_views s))%nat as [|n]; cbn; [|destruct n; discriminate].
      intros [= <-]. exact V.
Qed.
Lemma inv_set : forall s i w x cs, Inv s -> nth_error (vs_views s) i = Some (Some w) ->
  (forall v, x = Some v -> view_ok (vs_heap s) v) -> map rc_chunk cs = vs_heap s ->
  RC cs (fun c => nviews c (vs_views s) - ind c (Some w) + ind c x) -> Inv (VState (upd (vs_views s) i x) cs).
Proof.
  intros s i w x cs [I1 I2] E V H R. constructor; cbn [vs_views vs_chunks].
  - eapply RC_ext; [|exact R]. intros c. symmetry. apply nviews_upd. exact E.
  - intros j u. unfold vs_heap. cbn [vs_chunks]. rewrite H. rewrite nth_upd.
    destruct (i =? j)%nat; [|apply I2]. rewrite E. intros [= ->]. apply V. reflexivity.
Qed.
Lemma sub_ok : forall h v off size w, view_ok h v -> 0 <= off -> 0 <= size -> mview_sub v off size = Ok w ->
  view_ok h w /\ (mv_chunk w = mv_chunk v \/ mv_chunk w = None).
Proof.
  intros h v off size w [V1 V2] Ho Hs. unfold mview_sub. destruct (Z.leb_spec (off + size) (mv_size v)) as [L|L]; [|discriminate].
  cbn. intros [= <-]. destruct (Z.ltb_spec 0 size) as [P|P].
  - split; [|left; reflexivity]. split; [exact Hs|]. cbn. destruct (mv_chunk v); [|exact I].
    destruct V2 as (k & N & O1 & O2). exists k. split; [exact N|]. lia.
  - split; [|right; reflexivity]. split; [exact Hs|exact I].
Qed.

Definition named (o : vop) : list nat :=
  match o with VCopy i | VMove i | VSub i _ _ | VDestroy i => [i] | VAssign i j | VMoveAssign i j => [i; j] | _ => [] end.
Lemma vstep_inv : forall s o, Inv s -> sane o ->
  (forall i, In i (named o) -> exists v, nth_error (vs_views s) i = Some (Some v)) ->
  vstep s o = Abort \/ exists s', vstep s o = Ok s' /\ Inv s'.
Proof.
  intros s o I S LV. pose proof I as [I1 I2].
  destruct o as [|size|ptr size|i|i|i off size|i j|i j|i]; cbn [vstep named] in *.
  - right. eexists. split; [reflexivity|]. unfold push. apply inv_push; [exact I|split; [cbn; lia|exact Logic.I]|reflexivity|].
    eapply RC_ext; [|exact I1]. intros. unfold bump. cbn. lia.
  - unfold mview_alloc. destruct (Z.leb_spec 0 size); [|left; reflexivity]. right. cbn [dlaf_assert bind].
    destruct (Z.ltb_spec 0 size); cbn [fst snd]; eexists; (split; [reflexivity|]).
    + rewrite adopt_one. apply inv_new_chunk; [exact I|lia|reflexivity].
    + rewrite adopt_same. apply inv_push; [exact I|split; [cbn; lia|exact Logic.I]|reflexivity|].
      eapply RC_ext; [|exact I1]. intros. unfold bump. cbn. lia.
  - unfold mview_user. destruct (Z.leb_spec 0 size); [|left; reflexivity]. right. cbn [dlaf_assert bind].
    destruct ptr; cbn [fst snd]; eexists; (split; [reflexivity|]).
    + rewrite adopt_one. apply inv_new_chunk; [exact I|lia|reflexivity].
    + rewrite adopt_same. apply inv_push; [exact I|split; [cbn; lia|exact Logic.I]|reflexivity|].
      eapply RC_ext; [|exact I1]. intros. unfold bump. cbn. lia.
  - destruct (LV i (or_introl eq_refl)) as (v & E). unfold view. rewrite E. cbn [bind].
    destruct (retain_ok _ _ _ I1 (view_known s i v I E)) as (cs & Ec & R & H). rewrite Ec. cbn [bind].
    right. eexists. split; [reflexivity|]. apply inv_push; [exact I|apply (I2 i v E)|exact H|exact R].
  - destruct (LV i (or_introl eq_refl)) as (v & E). unfold view. rewrite E. cbn [bind].
    right. eexists. split; [reflexivity|].
    constructor; cbn [vs_views vs_chunks].
    + eapply RC_ext; [|exact I1]. intros c. rewrite nviews_app, (nviews_upd _ _ _ _ _ E). change (ind c (Some (MView None 0 0))) with 0. lia.
    + intros j u. unfold vs_heap. cbn [vs_chunks]. fold (vs_heap s).
      destruct (Nat.lt_ge_cases j (length (upd (vs_views s) i (Some (MView None 0 0))))) as [L|L].
      * rewrite nth_error_app1 by exact L. rewrite nth_upd, E. destruct (i =? j)%nat; [|apply I2].
        intros [= <-]. split; [cbn; lia|exact Logic.I].
      * rewrite nth_error_app2 by exact L. destruct (j - _)%nat as [|n]; cbn; [|destruct n; discriminate].
        intros [= <-]. apply (I2 i v E).
  - destruct (LV i (or_introl eq_refl)) as (v & E). unfold view. rewrite E. cbn [bind].
    destruct (mview_sub v off size) as [w| |] eqn:Ew; [|left; reflexivity|].
    2: { unfold mview_sub in Ew. destruct (off + size <=? mv_size v); discriminate. }
    cbn [bind]. destruct S as [S1 S2]. destruct (sub_ok _ _ _ _ _ (I2 i v E) S1 S2 Ew) as [V C].
    assert (K : known (vs_chunks s) (fun c => nviews c (vs_views s)) (mv_chunk w)).
    { destruct C as [-> | ->]; [apply (view_known s i v I E)|intros c [=]]. }
    destruct (retain_ok _ _ _ I1 K) as (cs & Ec & R & H). rewrite Ec. cbn [bind].
    right. eexists. split; [reflexivity|]. apply inv_push; assumption.
  - destruct (LV i (or_introl eq_refl)) as (w & Ei). destruct (LV j (or_intror (or_introl eq_refl))) as (v & Ej).
    unfold view. rewrite Ei, Ej. cbn [bind].
    destruct (retain_ok _ _ _ I1 (view_known s j v I Ej)) as (cs & Ec & R & H). rewrite Ec. cbn [bind].
    assert (LC : length cs = length (vs_chunks s)) by (rewrite <- (map_length rc_chunk cs), H, map_length; reflexivity).
    assert (K : known cs (bump (mv_chunk v) 1 (fun c => nviews c (vs_views s))) (mv_chunk w)).
    { intros c Hc. destruct (view_known s i w I Ei c Hc) as [A B]. split; [lia|].
      rewrite (bump_ind _ _ _ _ v eq_refl). pose proof (ind_le c (Some v)). lia. }
    destruct (release_ok _ _ _ R K) as (cs2 & Ec2 & R2 & H2). rewrite Ec2. cbn [bind].
    right. eexists. split; [reflexivity|]. apply (inv_set s i w); try assumption.
    + intros u [= <-]. apply (I2 j v Ej).
    + rewrite H2. exact H.
    + eapply RC_ext; [|exact R2]. intros c. rewrite (bump_ind _ _ _ _ w eq_refl), (bump_ind _ _ _ _ v eq_refl). lia.
  - destruct (LV i (or_introl eq_refl)) as (w & Ei). destruct (LV j (or_intror (or_introl eq_refl))) as (v & Ej).
    unfold view. rewrite Ei, Ej. cbn [bind]. destruct (Nat.eqb_spec i j) as [<-|Ne].
    + rewrite Ei in Ej. injection Ej as <-. right. eexists. split; [reflexivity|].
      apply (inv_set s i w); try assumption.
      * intros u [= <-]. destruct (I2 i w Ei) as [A B]. split; [cbn; lia|]. cbn. destruct (mv_chunk w); [|exact Logic.I].
        destruct B as (k & N & O). exists k. split; [exact N|]. lia.
      * reflexivity.
      * eapply RC_ext; [|exact I1]. intros c. unfold ind, refers. cbn. lia.
    + destruct (release_ok _ _ _ I1 (view_known s i w I Ei)) as (cs & Ec & R & H). rewrite Ec. cbn [bind].
      right. eexists. split; [reflexivity|].
      constructor; cbn [vs_views vs_chunks].
      * eapply RC_ext; [|exact R]. intros c. rewrite (bump_ind _ _ _ _ w eq_refl).
        assert (E' : nth_error (upd (vs_views s) j (Some (MView None 0 0))) i = Some (Some w)).
        { rewrite nth_upd. rewrite (proj2 (Nat.eqb_neq _ _)) by congruence. exact Ei. }
        rewrite (nviews_upd _ _ _ _ _ E'), (nviews_upd _ _ _ _ _ Ej). change (ind c (Some (MView None 0 0))) with 0. lia.
      * intros m u. unfold vs_heap. cbn [vs_chunks]. rewrite H. fold (vs_heap s). rewrite !nth_upd.
        rewrite (proj2 (Nat.eqb_neq j i)) by congruence. rewrite Ei, Ej.
        destruct (i =? m)%nat; [intros [= <-]; apply (I2 j v Ej)|].
        destruct (j =? m)%nat; [intros [= <-]; split; [cbn; lia|exact Logic.I]|apply I2].
  - destruct (LV i (or_introl eq_refl)) as (v & E). unfold view. rewrite E. cbn [bind].
    destruct (release_ok _ _ _ I1 (view_known s i v I E)) as (cs & Ec & R & H). rewrite Ec. cbn [bind].
    right. eexists. split; [reflexivity|]. apply (inv_set s i v); try assumption.
    + intros u [=].
    + eapply RC_ext; [|exact R]. intros c. rewrite (bump_ind _ _ _ _ v eq_refl). change (ind c None) with 0. lia.
Qed.
Lemma vrun_inv : forall ops s, Inv s -> Forall sane ops -> live_ops ops s ->
  vrun ops s = Abort \/ exists s', vrun ops s = Ok s' /\ Inv s'.
Proof.
  induction ops as [|o ops IH]; intros s I S L; cbn.
  - right. eauto.
  - inversion S; subst. destruct L as [L1 L2].
    destruct (vstep_inv s o I H1) as [E|(s' & E & I')].
    { intros i Hi. apply L1. destruct o; exact Hi. }
    + left. rewrite E. reflexivity.
    + rewrite E. cbn. apply IH; auto.
Qed.
Lemma inv_init : Inv vinit.
Proof. constructor; cbn; [intros [] k [=]|intros [] v [=]]. Qed.

(** ** C18 *)

(** Any history of view operations on live views (non-negative sub-view arguments) either stops in
    a failed assertion or ends in a state where
    - every live view lies inside its chunk, and that memory has not been freed;
    - library-allocated memory has been freed exactly once if no live view refers to it, and not at
      all otherwise; user memory has never been freed. *)
Theorem C18_histories : forall ops, Forall sane ops -> live_ops ops vinit ->
  vrun ops vinit = Abort \/
  exists s, vrun ops vinit = Ok s /\
    (forall i v c, nth_error (vs_views s) i = Some (Some v) -> mv_chunk v = Some c ->
       exists k, nth_error (vs_chunks s) c = Some k /\ rc_frees k = 0 /\
         0 <= mv_off v /\ 0 <= mv_size v /\ mv_off v + mv_size v <= ck_size (rc_chunk k)) /\
    (forall c k, nth_error (vs_chunks s) c = Some k ->
       (ck_allocated (rc_chunk k) = true -> nviews c (vs_views s) = 0 -> rc_frees k = 1) /\
       (0 < nviews c (vs_views s) -> rc_frees k = 0) /\
       (ck_allocated (rc_chunk k) = false -> rc_frees k = 0)).
Proof.
  intros ops S L. destruct (vrun_inv ops vinit inv_init S L) as [E|(s & E & I)]; [left; exact E|right].
  exists s. split; [exact E|]. pose proof I as [I1 I2]. split.
  - intros i v c Ei Ec. destruct (I2 i v Ei) as [V1 V2]. rewrite Ec in V2. destruct V2 as (k & N & V3 & V4).
    unfold vs_heap in N. rewrite nth_error_map in N. destruct (nth_error (vs_chunks s) c) as [r|] eqn:Er; [|discriminate].
    injection N as <-. exists r. split; [reflexivity|]. destruct (I1 c r Er) as [A B].
    destruct (view_known s i v I Ei c Ec) as [_ P]. rewrite B. unfold frees_of.
    rewrite (proj2 (Z.eqb_neq (rc_uses r) 0)) by lia. rewrite andb_false_r. lia.
  - intros c k Ek. destruct (I1 c k Ek) as [A B]. rewrite B. unfold frees_of. split; [|split].
    + intros -> Z0. rewrite A, Z0. reflexivity.
    + intros P. rewrite (proj2 (Z.eqb_neq (rc_uses k) 0)) by lia. rewrite andb_false_r. reflexivity.
    + intros ->. reflexivity.
Qed.
(** so after all views are gone each library allocation was freed exactly once *)
Theorem C18_no_leak : forall ops s, Forall sane ops -> live_ops ops vinit -> vrun ops vinit = Ok s ->
  (forall i v, nth_error (vs_views s) i <> Some (Some v)) ->
  forall c k, nth_error (vs_chunks s) c = Some k -> rc_frees k = if ck_allocated (rc_chunk k) then 1 else 0.
Proof.
  intros ops s S L E D c k Ek. destruct (C18_histories ops S L) as [E'|(s' & E' & _ & F)]; [congruence|].
  assert (s' = s) by congruence. subst s'. destruct (F c k Ek) as (F1 & _ & F3).
  assert (N0 : nviews c (vs_views s) = 0).
  { revert D. generalize (vs_views s). induction l as [|o l IH]; intros D; cbn; [reflexivity|].
    rewrite IH; [|intros i v; apply (D (Datatypes.S i) v)]. destruct o as [v|]; [|reflexivity]. exfalso. apply (D 0%nat v). reflexivity. }
  destruct (ck_allocated (rc_chunk k)); auto.
Qed.

(** The bounds rely on the caller: the sub-view constructor checks only offset + size <= size().
    A negative offset gives a view that starts before its memory. *)
Theorem C18_negative_offset_accepted_refuted :
  exists s v, vrun [VAlloc 4; VSub 0 (-3) 2] vinit = Ok s /\ nth_error (vs_views s) 1 = Some (Some v) /\ mv_off v < 0.
Proof. vm_compute. eexists _, _. repeat split. Qed.
(** A null user pointer is accepted with any size: the view reports a size but has no memory. *)
Theorem C18_null_pointer_accepted_refuted :
  exists s v, vrun [VUser false 5] vinit = Ok s /\ nth_error (vs_views s) 0 = Some (Some v) /\
    mv_size v = 5 /\ mview_at (vs_heap s) v 0 = UB.
Proof. vm_compute. eexists _, _. repeat split. Qed.
(** Moving a view onto itself keeps the memory alive but loses its size. *)
Theorem C18_self_move_loses_view_refuted :
  exists s v, vrun [VAlloc 4; VMoveAssign 0 0] vinit = Ok s /\ nth_error (vs_views s) 0 = Some (Some v) /\
    mv_size v = 0 /\ mv_chunk v = Some 0%nat.
Proof. vm_compute. eexists _, _. repeat split. Qed.

Example C18_instance :
  let ops := [VAlloc 6; VSub 0 2 3; VCopy 1; VDestroy 0; VMoveAssign 1 2; VUser true 4; VAssign 1 3; VDestroy 2] in
  Forall sane ops /\ live_ops ops vinit /\
  exists s, vrun ops vinit = Ok s /\ map rc_frees (vs_chunks s) = [1; 0].
Proof.
  split; [repeat constructor; cbn; lia|]. split; [|eexists; split; vm_compute; reflexivity].
  cbn. repeat (split; [intros ? H; cbn in H; intuition (subst; eexists; reflexivity)|]; intros ? [= <-]; cbn). exact I.
Qed.

(** ** Assumptions *)
Print Assumptions C18_histories.
Print Assumptions C18_no_leak.
Print Assumptions C18_negative_offset_accepted_refuted.
Print Assumptions C18_null_pointer_accepted_refuted.
Print Assumptions C18_self_move_loses_view_refuted.
