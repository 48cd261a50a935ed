(** * Property C19: accesses to a pipeline are granted in request order, reads together. *)
From Coq Require Import List Arith Bool Lia.
From Verif Require Import PipeModel.
Import ListNotations.

(** ** Specification *)

(** requests in the order they were made *)
Definition requests (hist : list event) : list (nat * mode) :=
  flat_map (fun e => match e with Req h m => [(h, m)] | Rel _ => [] end) hist.
Definition released (hist : list event) (h : nat) : Prop := In (Rel h) hist.
(** histories that can happen: a handle is requested once and released after that *)
Inductive history : list event -> Prop :=
| hist_nil : history []
| hist_req : forall hist h m, history hist -> ~ In h (map fst (requests hist)) -> history (hist ++ [Req h m])
| hist_rel : forall hist h, history hist -> In h (map fst (requests hist)) -> history (hist ++ [Rel h]).

(** the request list has h' before h, and not everything from h' to h is a read *)
Definition must_precede (reqs : list (nat * mode)) (h' h : nat) : Prop :=
  exists pre m' mid m post, reqs = pre ++ (h', m') :: mid ++ (h, m) :: post /\
    In W (m' :: map snd mid ++ [m]).

(** h may be accessed now *)
Definition granted (hist : list event) (h : nat) : Prop :=
  In h (map fst (requests hist)) /\ ~ released hist h /\
  forall h', must_precede (requests hist) h' h -> released hist h'.

(** ** Proof *)
Lemma requests_app : forall a b, requests (a ++ b) = requests a ++ requests b.
Proof. intros. apply flat_map_app. Qed.

Definition grouping (reqs : list (nat * mode)) : mutex := fold_left (fun q r => enqueue (fst r) (snd r) q) reqs [].
Definition keep_live (rel : nat -> bool) (g : group) : group := Group (g_mode g) (filter (fun x => negb (rel x)) (g_live g)).
Definition rel_b (hist : list event) (h : nat) : bool := existsb (fun e => match e with Rel x => x =? h | _ => false end) hist.
Lemma rel_b_spec : forall hist h, rel_b hist h = true <-> released hist h.
Proof.
  intros. unfold rel_b, released. rewrite existsb_exists. split.
  - intros ([|x] & H1 & H2); [discriminate|]. apply Nat.eqb_eq in H2. subst. exact H1.
  - intros H. exists (Rel h). split; [exact H|apply Nat.eqb_refl].
Qed.

Lemma enqueue_nonempty : forall h m q, enqueue h m q <> [].
Proof. intros h m [|g [|g' q]]; cbn; try discriminate. destruct m, (g_mode g); discriminate. Qed.
Lemma advance_cons_empty : forall g q, g_live g = [] -> q <> [] -> advance (g :: q) = advance q.
Proof. intros g [|g' q] E N; [congruence|]. cbn. rewrite E. reflexivity. Qed.
Lemma advance_cons_live : forall g q, g_live g <> [] -> advance (g :: q) = g :: q.
Proof. intros g [|g' q] E; [reflexivity|]. cbn. destruct (g_live g); congruence. Qed.

Lemma advance_enqueue : forall h m q, advance (enqueue h m (advance q)) = advance (enqueue h m q).
Proof.
  intros h m q. induction q as [|g q IH]; [reflexivity|].
  destruct q as [|g' q]; [reflexivity|].
  destruct (g_live g) eqn:E.
  - rewrite advance_cons_empty by (auto; discriminate). rewrite IH.
    change (enqueue h m (g :: g' :: q)) with (g :: enqueue h m (g' :: q)).
    rewrite (advance_cons_empty g) by (auto using enqueue_nonempty). reflexivity.
  - rewrite advance_cons_live by congruence. reflexivity.
Qed.
Lemma advance_map : forall f q, (forall g, g_live g = [] -> g_live (f g) = []) ->
  advance (map f (advance q)) = advance (map f q).
Proof.
  intros f q Hf. induction q as [|g q IH]; [reflexivity|].
  destruct q as [|g' q]; [reflexivity|].
  destruct (g_live g) eqn:E.
  - rewrite advance_cons_empty by (auto; discriminate). rewrite IH.
    change (map f (g :: g' :: q)) with (f g :: map f (g' :: q)).
    rewrite (advance_cons_empty (f g)); [reflexivity|auto|discriminate].
  - rewrite advance_cons_live by congruence. reflexivity.
Qed.
Lemma keep_enqueue : forall rel h m q, rel h = false ->
  map (keep_live rel) (enqueue h m q) = enqueue h m (map (keep_live rel) q).
Proof.
  intros rel h m q Hr.
  assert (K : keep_live rel (Group m [h]) = Group m [h]) by (unfold keep_live; cbn; rewrite Hr; reflexivity).
  induction q as [|g q IH]; [cbn [enqueue map]; rewrite K; reflexivity|].
  destruct q as [|g' q].
  - cbn [enqueue map keep_live g_mode]. destruct m, (g_mode g) eqn:E; cbn [map]; rewrite ?K; try reflexivity.
    unfold keep_live at 1. cbn [g_mode g_live]. rewrite filter_app. cbn [filter]. rewrite Hr. reflexivity.
  - change (enqueue h m (g :: g' :: q)) with (g :: enqueue h m (g' :: q)).
    change (map (keep_live rel) (g :: enqueue h m (g' :: q))) with (keep_live rel g :: map (keep_live rel) (enqueue h m (g' :: q))).
    rewrite IH. reflexivity.
Qed.

Lemma filter_all {A} : forall (f : A -> bool) l, (forall x, f x = true) -> filter f l = l.
Proof. intros f l H. induction l; cbn; rewrite ?H; congruence. Qed.

Lemma replay_groups : forall hist, history hist ->
  replay hist = advance (map (keep_live (rel_b hist)) (grouping (requests hist))) /\
  (forall h, released hist h -> In h (map fst (requests hist))).
Proof.
  intros hist H. induction H as [|hist h m H [IH1 IH2] N|hist h H [IH1 IH2] N].
  - split; [reflexivity|]. intros h [].
  - assert (RB : forall x, rel_b (hist ++ [Req h m]) x = rel_b hist x).
    { intros x. unfold rel_b. rewrite existsb_app. cbn. rewrite !orb_false_r. reflexivity. }
    split.
    + unfold replay. rewrite fold_left_app. cbn [fold_left]. fold (replay hist). rewrite IH1.
      cbn [apply_event]. unfold request. rewrite advance_enqueue.
      rewrite requests_app. cbn [requests flat_map app]. unfold grouping. rewrite fold_left_app. cbn [fold_left fst snd].
      fold (grouping (requests hist)). f_equal. symmetry.
      transitivity (map (keep_live (rel_b hist)) (enqueue h m (grouping (requests hist)))).
      { apply map_ext. intros g. unfold keep_live. f_equal. apply filter_ext. intros x. rewrite RB. reflexivity. }
      apply keep_enqueue. destruct (rel_b hist h) eqn:E; [|reflexivity].
      exfalso. apply N, IH2, rel_b_spec, E.
    + intros x Hx. unfold released in Hx. apply in_app_or in Hx as [Hx|[Hx|[]]]; [|discriminate].
      rewrite requests_app, map_app. apply in_or_app. left. apply IH2, Hx.
  - split.
    + unfold replay. rewrite fold_left_app. cbn [fold_left]. fold (replay hist). rewrite IH1.
      cbn [apply_event]. unfold release. rewrite advance_map.
      2: { intros g E. cbn. rewrite E. reflexivity. }
      rewrite requests_app. cbn [requests flat_map app]. rewrite app_nil_r. f_equal.
      rewrite map_map. apply map_ext. intros g. unfold drop_handle, keep_live. cbn. f_equal.
      induction (g_live g) as [|y l IHl]; [reflexivity|]. cbn [filter].
      assert (RB : rel_b (hist ++ [Rel h]) y = rel_b hist y || (h =? y)).
      { unfold rel_b. rewrite existsb_app. cbn. rewrite !orb_false_r. reflexivity. }
      rewrite RB. destruct (rel_b hist y) eqn:E; cbn [negb orb].
      * exact IHl.
      * cbn [filter]. rewrite (Nat.eqb_sym h y). destruct (Nat.eqb_spec y h) as [Q|Q]; cbn [negb]; [exact IHl|].
        rewrite IHl. reflexivity.
    + intros x Hx. unfold released in Hx. rewrite requests_app. cbn. rewrite app_nil_r.
      apply in_app_or in Hx as [Hx|[Hx|[]]]; [apply IH2, Hx|]. injection Hx as ->. exact N.
Qed.

(** structure of the groups *)
Definition flat (q : mutex) : list (nat * mode) := flat_map (fun g => map (fun h => (h, g_mode g)) (g_live g)) q.
Definition group_ok (g : group) : Prop := g_live g <> [] /\ (g_mode g = W -> exists h, g_live g = [h]).
Definition separated (q : mutex) : Prop :=
  forall q1 g g' q2, q = q1 ++ g :: g' :: q2 -> g_mode g = W \/ g_mode g' = W.

Lemma flat_enqueue : forall h m q, flat (enqueue h m q) = flat q ++ [(h, m)].
Proof.
  intros h m q. induction q as [|g q IH]; [reflexivity|].
  destruct q as [|g' q].
  - cbn [enqueue]. destruct m, (g_mode g) eqn:E; unfold flat; cbn [flat_map g_live g_mode map app]; rewrite ?app_nil_r, ?E; try reflexivity.
    rewrite map_app. reflexivity.
  - change (enqueue h m (g :: g' :: q)) with (g :: enqueue h m (g' :: q)).
    unfold flat in *. cbn [flat_map] in *. rewrite IH. rewrite app_assoc. reflexivity.
Qed.
Lemma enqueue_form : forall h m q,
  (exists q' g, q = q' ++ [g] /\ m = R /\ g_mode g = R /\ enqueue h m q = q' ++ [Group R (g_live g ++ [h])]) \/
  (enqueue h m q = q ++ [Group m [h]] /\ (forall q' g, q = q' ++ [g] -> m = W \/ g_mode g = W)).
Proof.
  intros h m q. induction q as [|g q IH].
  - right. split; [reflexivity|]. intros q' g E. destruct q'; discriminate.
  - destruct q as [|g' q].
    + cbn [enqueue]. destruct m, (g_mode g) eqn:E.
      1: left; exists [], g; auto.
      all: right; split; [reflexivity|]; intros [|x q'] g0 H; [injection H as ->; auto|destruct q'; discriminate].
    + change (enqueue h m (g :: g' :: q)) with (g :: enqueue h m (g' :: q)).
      destruct IH as [(q' & g0 & E1 & E2 & E3 & E4)|(E1 & E2)].
      * left. exists (g :: q'), g0. rewrite E4, E1. auto.
      * right. rewrite E1. split; [reflexivity|]. intros [|x q'] g0 H; [discriminate|]. injection H as -> H. apply (E2 q' g0 H).
Qed.
Lemma app_eq_last {A} : forall (a b : list A) x y, a ++ [x] = b ++ [y] -> a = b /\ x = y.
Proof. intros. apply app_inj_tail. exact H. Qed.
Lemma separated_change_last : forall q g g', g_mode g = g_mode g' -> separated (q ++ [g]) -> separated (q ++ [g']).
Proof.
  intros q g g' E S q1 a b q2 H.
  destruct q2 as [|c q2] using rev_ind.
  - replace (q1 ++ [a; b]) with ((q1 ++ [a]) ++ [b]) in H by (rewrite <- app_assoc; reflexivity).
    apply app_eq_last in H as [-> ->]. rewrite <- E. apply (S q1 a g []). rewrite <- app_assoc. reflexivity.
  - replace (q1 ++ a :: b :: q2 ++ [c]) with ((q1 ++ a :: b :: q2) ++ [c]) in H by (rewrite <- app_assoc; reflexivity).
    apply app_eq_last in H as [-> ->]. apply (S q1 a b (q2 ++ [g])). rewrite <- app_assoc. reflexivity.
Qed.
Lemma separated_add : forall q g, separated q -> (forall q' g', q = q' ++ [g'] -> g_mode g' = W \/ g_mode g = W) -> separated (q ++ [g]).
Proof.
  intros q g S L q1 a b q2 H.
  destruct q2 as [|c q2] using rev_ind.
  - replace (q1 ++ [a; b]) with ((q1 ++ [a]) ++ [b]) in H by (rewrite <- app_assoc; reflexivity).
    apply app_eq_last in H as [-> ->]. apply (L q1 a eq_refl).
  - replace (q1 ++ a :: b :: q2 ++ [c]) with ((q1 ++ a :: b :: q2) ++ [c]) in H by (rewrite <- app_assoc; reflexivity).
    apply app_eq_last in H as [-> ->]. apply (S q1 a b q2). reflexivity.
Qed.

Lemma grouping_ok : forall reqs, flat (grouping reqs) = reqs /\ Forall group_ok (grouping reqs) /\ separated (grouping reqs).
Proof.
  intros reqs. induction reqs as [|[h m] reqs (F & G & S)] using rev_ind.
  - split; [reflexivity|]. split; [constructor|]. intros [|x q1] g g' q2; discriminate.
  - unfold grouping. rewrite fold_left_app. cbn [fold_left fst snd]. fold (grouping reqs).
    split; [rewrite flat_enqueue, F; reflexivity|].
    destruct (enqueue_form h m (grouping reqs)) as [(q' & g & E1 & E2 & E3 & E4)|(E1 & E2)].
    + rewrite E4. rewrite E1 in G, S. apply Forall_app in G as [G1 G2]. split.
      * apply Forall_app. split; [exact G1|]. constructor; [|constructor]. split; cbn; [destruct (g_live g); discriminate|discriminate].
      * apply (separated_change_last q' g); [exact E3|exact S].
    + rewrite E1. split.
      * apply Forall_app. split; [exact G|]. constructor; [|constructor]. split; cbn; [discriminate|eauto].
      * apply separated_add; [exact S|]. intros q' g' H. cbn. destruct (E2 q' g' H); auto.
Qed.

Lemma holds_advance : forall q h, holds (advance q) h = true <->
  exists q1 g q2, q = q1 ++ g :: q2 /\ (forall x, In x q1 -> g_live x = []) /\ In h (g_live g).
Proof.
  intros q h. induction q as [|g q IH].
  - split; [discriminate|]. intros ([|x q1] & g & q2 & E & _); discriminate.
  - assert (X : holds (g :: q) h = true <-> In h (g_live g)).
    { cbn. rewrite existsb_exists. split; [intros (x & H1 & H2); apply Nat.eqb_eq in H2; subst; exact H1|].
      intros H. exists h. split; [exact H|apply Nat.eqb_refl]. }
    destruct q as [|g' q].
    + cbn [advance]. rewrite X. split.
      * intros H. exists [], g, []. split; [reflexivity|]. split; [intros x []|exact H].
      * intros (q1 & g0 & q2 & E & _ & H). destruct q1 as [|x q1]; [injection E as -> <-; exact H|destruct q1; discriminate].
    + destruct (g_live g) as [|y l] eqn:L.
      * rewrite advance_cons_empty by (auto; discriminate). rewrite IH. split.
        -- intros (q1 & g0 & q2 & E & H1 & H2). exists (g :: q1), g0, q2. rewrite E. split; [reflexivity|].
           split; [|exact H2]. intros x [->|Hx]; auto.
        -- intros (q1 & g0 & q2 & E & H1 & H2). destruct q1 as [|x q1].
           ++ injection E as -> E. rewrite L in H2. contradiction.
           ++ injection E as -> E. exists q1, g0, q2. split; [exact E|]. split; [|exact H2]. intros z Hz. apply H1. right. exact Hz.
      * rewrite advance_cons_live by congruence. rewrite X, <- L. split.
        -- intros H. exists [], g, (g' :: q). split; [reflexivity|]. split; [intros x []|exact H].
        -- intros (q1 & g0 & q2 & E & H1 & H2). destruct q1 as [|x q1]; [injection E as -> _; exact H2|].
           injection E as -> E. specialize (H1 x (or_introl eq_refl)). congruence.
Qed.

Lemma flat_app : forall a b, flat (a ++ b) = flat a ++ flat b.
Proof. intros. apply flat_map_app. Qed.
Lemma in_flat : forall q h m, In (h, m) (flat q) -> exists q1 g q2, q = q1 ++ g :: q2 /\ In h (g_live g) /\ g_mode g = m.
Proof.
  intros q h m H. unfold flat in H. apply in_flat_map in H as (g & Hg & H). apply in_map_iff in H as (x & E & Hx).
  injection E as -> <-. apply in_split in Hg as (q1 & q2 & ->). exists q1, g, q2. auto.
Qed.
Lemma nodup_split {A B} : forall (l : list (A * B)) a1 x1 b1 a2 x2 b2, NoDup (map fst l) ->
  l = a1 ++ x1 :: b1 -> l = a2 ++ x2 :: b2 -> fst x1 = fst x2 -> a1 = a2 /\ x1 = x2 /\ b1 = b2.
Proof.
  induction l as [|y l IH]; intros a1 x1 b1 a2 x2 b2 ND E1 E2 F.
  - destruct a1; discriminate.
  - cbn in ND. inversion ND as [|? ? Hy ND']; subst.
    destruct a1 as [|z1 a1], a2 as [|z2 a2]; cbn in E1, E2; injection E1 as -> E1; injection E2 as E2 E2'; subst.
    + auto.
    + exfalso. apply Hy. rewrite map_app. cbn. rewrite F. apply in_or_app. right. left. reflexivity.
    + exfalso. apply Hy. rewrite map_app. cbn. rewrite <- F. apply in_or_app. right. left. reflexivity.
    + destruct (IH a1 x1 b1 a2 x2 b2 ND' eq_refl E2' F) as (-> & -> & ->). auto.
Qed.

Lemma requests_nodup : forall hist, history hist -> NoDup (map fst (requests hist)).
Proof.
  intros hist H. induction H as [|hist h m H IH N|hist h H IH N]; [constructor| |].
  - rewrite requests_app, map_app. cbn.
    clear H. revert N IH. generalize (map fst (requests hist)). intros l. induction l as [|y l IHl]; intros N ND; cbn.
    + repeat constructor. intros [].
    + inversion ND; subst. constructor.
      * intros X. apply in_app_or in X as [X|[X|[]]]; [contradiction|]. subst. apply N. left. reflexivity.
      * apply IHl; [|assumption]. intros X. apply N. right. exact X.
  - rewrite requests_app. cbn. rewrite app_nil_r. exact IH.
Qed.

(** the requests that must precede a member of a group are the members of the earlier groups *)
Lemma must_precede_groups : forall q1 g q2 h h', Forall group_ok (q1 ++ g :: q2) -> separated (q1 ++ g :: q2) ->
  NoDup (map fst (flat (q1 ++ g :: q2))) -> In h (g_live g) ->
  (must_precede (flat (q1 ++ g :: q2)) h' h <-> exists x, In x q1 /\ In h' (g_live x)).
Proof.
  intros q1 g q2 h h' GO S ND Hh.
  apply in_split in Hh as (l1 & l2 & Hl).
  set (fg := fun h : nat => (h, g_mode g)).
  assert (E0 : flat (q1 ++ g :: q2) = (flat q1 ++ map fg l1) ++ (h, g_mode g) :: (map fg l2 ++ flat q2)).
  { rewrite flat_app. change (flat (g :: q2)) with (map fg (g_live g) ++ flat q2).
    rewrite Hl, map_app. cbn [map]. rewrite <- !app_assoc. reflexivity. }
  split.
  - intros (pre & m' & mid & m & post & E & HW).
    destruct (nodup_split _ (pre ++ (h', m') :: mid) (h, m) post (flat q1 ++ map fg l1) (h, g_mode g) (map fg l2 ++ flat q2) ND) as (A1 & A2 & A3).
    { rewrite E, <- app_assoc. reflexivity. }
    { exact E0. }
    { reflexivity. }
    injection A2 as Em. clear A3.
    (* is h' in an earlier group or in the same one? *)
    assert (X : (exists b, flat q1 = pre ++ (h', m') :: b) \/ (exists a b, l1 = a ++ h' :: b /\ m' = g_mode g /\ mid = map fg b)).
    { clear - A1. revert pre A1. induction (flat q1) as [|y f IH]; intros pre A1.
      - right. cbn in A1. revert pre A1. induction l1 as [|z l1 IHl]; intros pre A1; [destruct pre; discriminate|].
        destruct pre as [|p pre]; cbn in A1.
        + injection A1 as A1 A2 A3. exists [], l1. subst. auto.
        + injection A1 as A1 A2. destruct (IHl pre A2) as (a & b & -> & B & C). exists (z :: a), b. auto.
      - destruct pre as [|p pre]; cbn in A1.
        + left. injection A1 as <- A1. exists f. reflexivity.
        + injection A1 as -> A1. destruct (IH pre A1) as [(b & ->)|X]; [left; exists b; reflexivity|right; exact X]. }
    destruct X as [(b & Eb)|(a & b & Ea & Em' & Emid)].
    + assert (Hin : In (h', m') (flat q1)) by (rewrite Eb; apply in_or_app; right; left; reflexivity).
      apply in_flat in Hin as (r1 & x & r2 & -> & Hx & _). exists x. split; [apply in_or_app; right; left; reflexivity|exact Hx].
    + exfalso.
      assert (GW : g_mode g = W).
      { subst m' m. destruct HW as [HW|HW]; [exact HW|]. apply in_app_or in HW as [HW|[HW|[]]]; [|exact HW].
        rewrite Emid, map_map in HW. cbn in HW. apply in_map_iff in HW as (z & HW & _). exact HW. }
      apply Forall_app in GO as [_ GO]. inversion GO as [|? ? [_ G1] _]; subst. destruct (G1 GW) as [z Hz].
      rewrite Hl in Hz. destruct a; cbn in Hz; [destruct b; discriminate|destruct a; discriminate].
  - intros (x & Hx & Hh'). apply in_split in Hx as (r1 & r2 & ->).
    apply in_split in Hh' as (c1 & c2 & Hc).
    set (fx := fun h : nat => (h, g_mode x)).
    exists (flat r1 ++ map fx c1), (g_mode x), (map fx c2 ++ flat r2 ++ map fg l1), (g_mode g), (map fg l2 ++ flat q2).
    split.
    + rewrite E0. rewrite flat_app. change (flat (x :: r2)) with (map fx (g_live x) ++ flat r2). rewrite Hc, map_app. cbn [map].
      repeat (rewrite <- !app_assoc; cbn [app]). reflexivity.
    + destruct (g_mode x) eqn:Ex; [|left; reflexivity]. right.
      destruct r2 as [|y r2].
      * destruct (S r1 x g q2) as [Y|Y]; [rewrite <- app_assoc; reflexivity|congruence|].
        apply in_or_app. right. left. exact Y.
      * destruct (S r1 x y (r2 ++ g :: q2)) as [Y|Y]; [rewrite <- app_assoc; reflexivity|congruence|].
        apply in_or_app. left. rewrite !map_app. apply in_or_app. right. apply in_or_app. left.
        assert (GY : group_ok y).
        { rewrite Forall_forall in GO. apply GO. apply in_or_app. left. apply in_or_app. right. right. left. reflexivity. }
        destruct GY as [_ GY]. destruct (GY Y) as [z Hz]. unfold flat. cbn [flat_map]. rewrite Hz, Y. left. reflexivity.
Qed.

(** ** C19 *)

(** In every history an access is granted exactly when it was requested, is not yet released, and
    every earlier access that is not in the same run of reads has been released. *)
Theorem C19_grant_order : forall hist h, history hist -> (holds (replay hist) h = true <-> granted hist h).
Proof.
  intros hist h H. destruct (replay_groups hist H) as [E RI]. rewrite E, holds_advance.
  destruct (grouping_ok (requests hist)) as (F & GO & S). pose proof (requests_nodup hist H) as ND.
  set (G := grouping (requests hist)) in *. clearbody G.
  assert (LV : forall g x, In x (g_live (keep_live (rel_b hist) g)) <-> In x (g_live g) /\ ~ released hist x).
  { intros g x. cbn. rewrite filter_In. rewrite negb_true_iff, <- rel_b_spec. destruct (rel_b hist x); intuition discriminate. }
  unfold granted. rewrite <- F in *. split.
  - intros (q1 & g & q2 & EQ & H1 & H2).
    apply map_eq_app in EQ as (r1 & r2' & -> & E1 & E2). destruct r2' as [|g0 r2]; [discriminate|]. cbn in E2. injection E2 as <- <-.
    apply LV in H2 as [H2 H3].
    split; [|split; [exact H3|]].
    + rewrite flat_app, map_app. apply in_or_app. right. cbn. rewrite map_app. apply in_or_app. left. rewrite map_map. cbn.
      rewrite map_id. exact H2.
    + intros h' MP. apply (must_precede_groups r1 g0 r2 h h' GO S ND H2) in MP as (x & Hx & Hh').
      destruct (rel_b hist h') eqn:Q; [apply rel_b_spec; exact Q|]. exfalso.
      assert (X : In h' (g_live (keep_live (rel_b hist) x))) by (apply LV; split; [exact Hh'|rewrite <- rel_b_spec; congruence]).
      rewrite (H1 (keep_live (rel_b hist) x)) in X; [contradiction|]. rewrite <- E1. apply in_map. exact Hx.
  - intros (H1 & H2 & H3). apply in_map_iff in H1 as ([h0 m] & E0 & H1). cbn in E0. subst h0.
    apply in_flat in H1 as (r1 & g & r2 & -> & Hg & _).
    exists (map (keep_live (rel_b hist)) r1), (keep_live (rel_b hist) g), (map (keep_live (rel_b hist)) r2).
    split; [rewrite map_app; reflexivity|]. split; [|apply LV; auto].
    intros x Hx. apply in_map_iff in Hx as (y & <- & Hy).
    destruct (g_live (keep_live (rel_b hist) y)) as [|z l] eqn:Q; [reflexivity|]. exfalso.
    assert (Z : In z (g_live (keep_live (rel_b hist) y))) by (rewrite Q; left; reflexivity).
    apply LV in Z as [Z1 Z2]. apply Z2, H3. apply (must_precede_groups r1 g r2 h z GO S ND Hg). exists y. auto.
Qed.

Lemma requests_in : forall (reqs : list (nat * mode)) h, In h (map fst reqs) -> exists pre m post, reqs = pre ++ (h, m) :: post.
Proof.
  intros reqs h H. apply in_map_iff in H as ([x m] & E & H). cbn in E. subst x.
  apply in_split in H as (a & b & ->). eauto.
Qed.

(** Conflicting accesses are never granted at the same time. *)
Theorem C19_exclusion : forall hist h1 m1 h2 m2, history hist ->
  In (h1, m1) (requests hist) -> In (h2, m2) (requests hist) ->
  holds (replay hist) h1 = true -> holds (replay hist) h2 = true -> h1 = h2 \/ (m1 = R /\ m2 = R).
Proof.
  intros hist h1 m1 h2 m2 H I1 I2 A1 A2.
  apply C19_grant_order in A1 as (_ & N1 & P1); [|exact H]. apply C19_grant_order in A2 as (_ & N2 & P2); [|exact H].
  apply in_split in I1 as (a & b & E).
  rewrite E in I2. apply in_app_or in I2 as [I2|[I2|I2]].
  - apply in_split in I2 as (c & d & ->). destruct m1, m2; auto; exfalso; apply N2, P1.
    all: eexists c, _, d, _, b; split; [rewrite E, <- app_assoc; reflexivity|].
    all: first [left; reflexivity|right; apply in_or_app; right; left; reflexivity].
  - injection I2 as -> ->. auto.
  - apply in_split in I2 as (c & d & ->). destruct m1, m2; auto; exfalso; apply N1, P2.
    all: eexists a, _, c, _, d; split; [exact E|].
    all: first [left; reflexivity|right; apply in_or_app; right; left; reflexivity].
Qed.

(** No lost wake-up: when everything requested before h has been released, h is granted; and
    while something is unreleased, some access is granted. *)
Theorem C19_no_lost_wakeup : forall hist, history hist ->
  (forall pre h m post, requests hist = pre ++ (h, m) :: post -> ~ released hist h ->
     (forall x, In x (map fst pre) -> released hist x) -> holds (replay hist) h = true) /\
  ((exists h, In h (map fst (requests hist)) /\ ~ released hist h) ->
   exists h, holds (replay hist) h = true).
Proof.
  intros hist H.
  assert (A : forall pre h m post, requests hist = pre ++ (h, m) :: post -> ~ released hist h ->
     (forall x, In x (map fst pre) -> released hist x) -> holds (replay hist) h = true).
  { intros pre h m post E N P. apply C19_grant_order; [exact H|].
    split; [rewrite E, map_app; apply in_or_app; right; left; reflexivity|]. split; [exact N|].
    intros h' (p & m' & mid & m0 & q & E' & _).
    destruct (nodup_split _ (p ++ (h', m') :: mid) (h, m0) q pre (h, m) post (requests_nodup hist H)) as (Q & _).
    - rewrite E', <- app_assoc. reflexivity.
    - exact E.
    - reflexivity.
    - apply P. rewrite <- Q, map_app. apply in_or_app. right. left. reflexivity. }
  split; [exact A|].
  (* the first unreleased request *)
  intros (h & Hh & N).
  assert (X : forall l : list (nat * mode), (exists h, In h (map fst l) /\ ~ released hist h) ->
     exists pre h m post, l = pre ++ (h, m) :: post /\ ~ released hist h /\ forall x, In x (map fst pre) -> released hist x).
  { induction l as [|[y m] l IH]; [intros (z & [] & _)|]. intros (z & Hz & Nz).
    destruct (rel_b hist y) eqn:Q.
    - apply rel_b_spec in Q. destruct IH as (pre & k & m' & post & -> & Nk & P).
      + exists z. split; [|exact Nz]. destruct Hz as [<-|Hz]; [contradiction|exact Hz].
      + exists ((y, m) :: pre), k, m', post. split; [reflexivity|]. split; [exact Nk|]. intros x [<-|Hx]; auto.
    - exists [], y, m, l. split; [reflexivity|]. split; [rewrite <- rel_b_spec; congruence|]. intros x []. }
  destruct (X (requests hist)) as (pre & k & m & post & E & Nk & P); [eauto|]. exists k. eapply A; eassumption.
Qed.

(** A granted access stays granted until it is released, whatever else happens. *)
Theorem C19_grant_stable : forall hist e h, history hist -> history (hist ++ [e]) -> e <> Rel h ->
  holds (replay hist) h = true -> holds (replay (hist ++ [e])) h = true.
Proof.
  intros hist e h H H' Ne A. apply C19_grant_order in A as (I1 & N & P); [|exact H]. apply C19_grant_order; [exact H'|].
  split; [rewrite requests_app, map_app; apply in_or_app; left; exact I1|]. split.
  - intros X. apply in_app_or in X as [X|[X|[]]]; [contradiction|congruence].
  - intros h' MP. apply in_or_app. left. apply P.
    destruct MP as (pre & m' & mid & m & post & E & HW). rewrite requests_app in E.
    apply requests_in in I1 as (a & m0 & b & E1). pose proof (requests_nodup _ H') as ND. rewrite requests_app in ND.
    destruct (nodup_split _ (pre ++ (h', m') :: mid) (h, m) post a (h, m0) (b ++ requests [e]) ND) as (Q1 & Q2 & Q3).
    + rewrite E, <- app_assoc. reflexivity.
    + rewrite E1, <- app_assoc. reflexivity.
    + reflexivity.
    + injection Q2 as ->. exists pre, m', mid, m0, b. split; [|exact HW].
      rewrite E1, <- Q1, <- app_assoc. reflexivity.
Qed.

(** a history in which reads share, a writer waits, and a dropped write does not let later reads
    overtake earlier ones *)
Example C19_example :
  let h := [Req 0 R; Req 1 R; Req 2 W; Req 3 R; Req 4 W; Rel 2; Rel 0] in
  history h /\ holds (replay h) 1 = true /\ holds (replay h) 3 = false /\ holds (replay (h ++ [Rel 1])) 3 = true.
Proof.
  cbn zeta. split; [|vm_compute; auto].
  repeat match goal with
  | |- history [] => constructor
  | |- history ?l => let p := eval cbn in (removelast l) in let x := eval cbn in (last l (Rel 0)) in
                     change l with (p ++ [x]); constructor; [|cbn; intuition congruence]
  end.
Qed.

(** ** Assumptions *)
Print Assumptions C19_grant_order.
Print Assumptions C19_exclusion.
Print Assumptions C19_no_lost_wakeup.
Print Assumptions C19_grant_stable.
