(** * C38: C API contexts identify grids *)
From Coq Require Import ZArith Lia Bool List.
From Verif Require Import CInt Loop DistModel IndexModel Properties_Index CommGridModel Properties_CommGrid CApiModel.
Import ListNotations.
Open Scope Z_scope.

(** ** Histories *)
(** One C API call, with the context it returned. *)
Inductive call (G : Type) :=
| Create (g : G) (ctx : Z)        (* dlaf_create_grid returned ctx *)
| CreateBlacs (b : Z) (g : G)     (* dlaf_create_grid_from_blacs(b) *)
| Free (c : Z)
| FreeAll.
Arguments Create {G}. Arguments CreateBlacs {G}. Arguments Free {G}. Arguments FreeAll {G}.

(** [reaches h m]: the calls [h] (most recent first) lead from the empty map to [m]. *)
Inductive reaches {G : Type} : list (call G) -> grids G -> Prop :=
| r_nil : reaches [] []
| r_create : forall h m g c m', reaches h m -> dlaf_create_grid g m = (c, m') -> reaches (Create g c :: h) m'
| r_blacs : forall h m b g, reaches h m -> reaches (CreateBlacs b g :: h) (dlaf_create_grid_from_blacs b g m)
| r_free : forall h m c, reaches h m -> reaches (Free c :: h) (dlaf_free_grid c m)
| r_all : forall h m, reaches h m -> reaches (FreeAll :: h) (dlaf_free_all_grids m).

(** The grid a context should denote after a history: the one of the latest creation that returned it,
    unless it was freed since. *)
Fixpoint denotes {G} (h : list (call G)) (c : Z) : option G :=
  match h with
  | [] => None
  | Create g c' :: r => if c =? c' then Some g else denotes r c
  | CreateBlacs b g :: r => if c =? b then Some g else denotes r c
  | Free c' :: r => if c =? c' then None else denotes r c
  | FreeAll :: r => None
  end.

(** Live contexts, most recent first. *)
Fixpoint live {G} (h : list (call G)) : list Z :=
  match h with
  | [] => []
  | Create g c :: r => c :: live r
  | CreateBlacs b g :: r => b :: live r
  | Free c :: r => filter (fun x => negb (x =? c)) (live r)
  | FreeAll :: r => []
  end.

(** Grids are freed most-recent-first (or all together); a BLACS context is not registered again while it
    is live; BLACS contexts are small non-negative numbers. *)
Inductive lifo {G : Type} : list (call G) -> Prop :=
| l_nil : lifo []
| l_create : forall h g c, lifo h -> lifo (Create g c :: h)
| l_blacs : forall h b g, lifo h -> ~ In b (live h) -> 0 <= b < 2 ^ 30 -> lifo (CreateBlacs b g :: h)
| l_free : forall h c rest, lifo h -> live h = c :: rest -> lifo (Free c :: h)
| l_free_dead : forall h c, lifo h -> ~ In c (live h) -> lifo (Free c :: h)
| l_all : forall h, lifo h -> lifo (FreeAll :: h).

(** ** Map lemmas *)
Section Maps.
Context {G : Type}.
Implicit Types (m : grids G).

Lemma find_erase : forall k c m, find c (erase k m) = if c =? k then None else find c m.
Proof.
  intros k c m. unfold erase. induction m as [|[k' g] r IH]; cbn; [destruct (c =? k); reflexivity|].
  destruct (k' =? k) eqn:E1; cbn.
  - apply Z.eqb_eq in E1. subst. rewrite IH. destruct (c =? k) eqn:E; [reflexivity|]. reflexivity.
  - rewrite IH. destruct (c =? k') eqn:E2; [|reflexivity].
    destruct (c =? k) eqn:E3; [|reflexivity]. apply Z.eqb_eq in E2, E3. apply Z.eqb_neq in E1. lia.
Qed.

Lemma find_emplace : forall k g c m,
  find c (try_emplace k g m) = if c =? k then (match find k m with Some g' => Some g' | None => Some g end) else find c m.
Proof.
  intros. unfold try_emplace. destruct (find k m) eqn:E; cbn.
  - destruct (c =? k) eqn:E2; [|reflexivity]. apply Z.eqb_eq in E2. subst. exact E.
  - destruct (c =? k); reflexivity.
Qed.

Lemma find_none : forall c m, find c m = None <-> ~ In c (map fst m).
Proof.
  induction m as [|[k g] r IH]; cbn; [tauto|].
  destruct (c =? k) eqn:E.
  - apply Z.eqb_eq in E. subst. split; [discriminate | tauto].
  - apply Z.eqb_neq in E. rewrite IH. split; [intros H [F | F]; [congruence | auto] | tauto].
Qed.

Lemma map_erase : forall k m, map fst (erase k m) = filter (fun x => negb (x =? k)) (map fst m).
Proof.
  intros k m. unfold erase. induction m as [|[k' g] r IH]; cbn; [reflexivity|]. destruct (k' =? k); cbn; rewrite IH; reflexivity.
Qed.
End Maps.

Lemma filter_absent : forall c l, ~ In c l -> filter (fun x => negb (x =? c)) l = l.
Proof.
  induction l as [|x r IH]; cbn; [auto|]. intros H. destruct (x =? c) eqn:E; cbn.
  - apply Z.eqb_eq in E. tauto.
  - f_equal. apply IH. tauto.
Qed.

Lemma find_nil_keys : forall G (c : Z) (m : grids G), map fst m = [] -> find c m = None.
Proof. intros. destruct m; [reflexivity | discriminate]. Qed.

(** Contexts of a stack: position i (from the bottom) holds INT_MAX - i or a small BLACS context. *)
Fixpoint stack_ok (l : list Z) : Prop :=
  match l with
  | [] => True
  | c :: r => (c = i32_max - Z.of_nat (length r) \/ 0 <= c < 2 ^ 30) /\ ~ In c r /\ stack_ok r
  end.

Lemma stack_ok_in : forall l c, stack_ok l -> In c l ->
  (i32_max - Z.of_nat (length l) < c) \/ 0 <= c < 2 ^ 30.
Proof.
  induction l as [|x r IH]; intros c H Hc; [destruct Hc|]. cbn [stack_ok In length] in *.
  destruct H as (H1 & H2 & H3). destruct Hc as [<- | Hc].
  - destruct H1 as [-> | H1]; [left; lia | right; lia].
  - destruct (IH c H3 Hc); [left; lia | right; lia].
Qed.

Lemma filter_len : forall (f : Z -> bool) l, (length (filter f l) <= length l)%nat.
Proof. induction l; cbn; [lia|]. destruct (f a); cbn; lia. Qed.
Lemma live_length : forall G (h : list (call G)), (length (live h) <= length h)%nat.
Proof.
  induction h as [|[g c | b g | c | ] r IH]; cbn; try lia.
  pose proof (filter_len (fun x => negb (x =? c)) (live r)). lia.
Qed.

Lemma wrap32_small : forall z, 0 <= z < 2 ^ 31 -> wrap32 z = z.
Proof. intros. unfold wrap32. rewrite Z.mod_small by lia. lia. Qed.

Lemma fresh_above : forall (m : Z) l, stack_ok l -> Z.of_nat (length l) < 2 ^ 30 ->
  ~ In (i32_max - Z.of_nat (length l)) l.
Proof.
  intros m l S L Hin. destruct (stack_ok_in l _ S Hin) as [H | H]; [lia|]. unfold i32_max in H. lia.
Qed.

Lemma lifo_inv : forall G (h : list (call G)) m,
  reaches h m -> lifo h -> Z.of_nat (length h) <= 2 ^ 30 ->
  map fst m = live h /\ stack_ok (live h) /\ forall c, find c m = denotes h c.
Proof.
  intros G h m R. induction R as [|h m g c m' R IH E |h m b g R IH |h m c R IH |h m R IH]; intros L Len.
  - cbn. auto.
  - inversion_clear L. destruct (IH H ltac:(cbn [length] in Len; lia)) as (K & S & F).
    pose proof (live_length G h) as LL. cbn [length] in Len.
    unfold dlaf_create_grid in E. apply pair_equal_spec in E. destruct E as [Ec Em].
    rewrite <- (map_length fst m), K in Ec, Em.
    assert (Hs : 0 <= Z.of_nat (length (live h)) < 2 ^ 30) by lia.
    rewrite (wrap32_small (Z.of_nat (length (live h)))) in Ec, Em by lia.
    assert (N : find c m = None). { apply find_none. rewrite K, <- Ec. apply fresh_above; [exact 0| |lia]. exact S. }
    rewrite Ec in Em. unfold try_emplace in Em. rewrite N in Em. subst m'.
    cbn [map fst live denotes find]. rewrite K. split; [reflexivity|]. split.
    + cbn [stack_ok]. rewrite <- Ec. split; [left; reflexivity|]. split; [|exact S].
      apply fresh_above; [exact 0 | exact S | lia].
    + intros c'. destruct (c' =? c); [reflexivity | apply F].
  - inversion_clear L. destruct (IH H ltac:(cbn [length] in Len; lia)) as (K & S & F).
    unfold dlaf_create_grid_from_blacs, try_emplace.
    assert (N : find b m = None) by (apply find_none; rewrite K; assumption).
    rewrite N. cbn [map fst live denotes find]. rewrite K. split; [reflexivity|]. split.
    + cbn [stack_ok]. auto.
    + intros c'. destruct (c' =? b); [reflexivity | apply F].
  - cbn [live denotes]. unfold dlaf_free_grid. rewrite map_erase.
    assert (L2 : lifo h) by (inversion L; assumption).
    destruct (IH L2 ltac:(cbn [length] in Len; lia)) as (K & S & F).
    rewrite K. split; [reflexivity|]. split.
    + inversion_clear L.
      * rewrite H0 in *. cbn [stack_ok] in S. destruct S as (S1 & S2 & S3).
        cbn [filter]. rewrite Z.eqb_refl. cbn [negb]. rewrite filter_absent by assumption. exact S3.
      * rewrite filter_absent by assumption. exact S.
    + intros c'. rewrite find_erase. destruct (c' =? c); [reflexivity | apply F].
  - cbn. auto.
Qed.

(** ** Theorems *)

(** With grids freed most-recent-first, a created context is fresh (no live context has that value), and
    every context refers to the grid it was last created for. *)
Theorem C38_fresh_and_correct : forall G (h : list (call G)) m,
  reaches h m -> lifo h -> Z.of_nat (length h) <= 2 ^ 30 ->
  (forall c, find c m = denotes h c) /\
  (forall g c m', Z.of_nat (length h) < 2 ^ 30 -> dlaf_create_grid g m = (c, m') ->
     ~ In c (live h) /\ grid_from_context c m = Abort /\ grid_from_context c m' = Ok g).
Proof.
  intros G h m R L Len. destruct (lifo_inv G h m R L Len) as (K & S & F).
  split; [exact F|]. intros g c m' Len2 E.
  pose proof (live_length G h) as LL.
  unfold dlaf_create_grid in E. apply pair_equal_spec in E. destruct E as [Ec Em].
  rewrite <- (map_length fst m), K in Ec, Em.
  rewrite (wrap32_small (Z.of_nat (length (live h)))) in Ec, Em by lia.
  assert (N : ~ In c (live h)) by (rewrite <- Ec; apply fresh_above; [exact 0 | exact S | lia]).
  assert (N2 : find c m = None) by (apply find_none; rewrite K; exact N).
  split; [exact N|]. unfold grid_from_context. rewrite N2. split; [reflexivity|].
  rewrite <- Em, Ec. rewrite find_emplace, Z.eqb_refl, N2. reflexivity.
Qed.

(** In every history (any order of frees): a context keeps referring to the same grid as long as neither
    it nor all grids are freed. *)
Theorem C38_stays_until_freed : forall G (h h2 : list (call G)) m m2 c g,
  reaches h m -> grid_from_context c m = Ok g ->
  reaches (h2 ++ h) m2 -> (forall x, In x h2 -> x <> Free c /\ x <> FreeAll) ->
  grid_from_context c m2 = Ok g.
Proof.
  intros G h h2 m m2 c g R E.
  assert (U : forall h m m', reaches (G := G) h m -> reaches h m' -> m = m').
  { clear. intros h m m' R. revert m'. induction R; intros mm R'; inversion R'; subst; auto;
      try (match goal with K : reaches h ?x |- _ => pose proof (IHR _ K); subst end; congruence). }
  revert m2. induction h2 as [|x h2 IH]; intros m2 R2 H.
  - cbn in R2. rewrite <- (U _ _ _ R R2). exact E.
  - assert (H' : forall y, In y h2 -> y <> Free c /\ y <> FreeAll) by (intros; apply H; right; auto).
    destruct (H x (or_introl eq_refl)) as [N1 N2]. unfold grid_from_context in *.
    cbn [app] in R2. inversion R2; subst.
    + match goal with K : reaches _ ?x, E' : dlaf_create_grid _ ?x = _ |- _ =>
        specialize (IH _ K H'); rename E' into H3; rename x into m0 end.
      unfold dlaf_create_grid in H3. apply pair_equal_spec in H3. destruct H3 as [_ <-].
      rewrite find_emplace. destruct (find c m0) eqn:F; [|discriminate].
      destruct (c =? _) eqn:Q; [|exact IH]. apply Z.eqb_eq in Q. rewrite <- Q, F. exact IH.
    + specialize (IH m0 ltac:(assumption) H'). unfold dlaf_create_grid_from_blacs.
      rewrite find_emplace. destruct (c =? b) eqn:Q; [|exact IH]. apply Z.eqb_eq in Q. subst b.
      destruct (find c m0); [exact IH | discriminate].
    + specialize (IH m0 ltac:(assumption) H'). unfold dlaf_free_grid. rewrite find_erase.
      destruct (c =? c0) eqn:Q; [|exact IH]. apply Z.eqb_eq in Q. subst. congruence.
    + congruence.
Qed.

(** Freeing a context invalidates exactly that context. *)
Theorem C38_free_only_that_context : forall G (m : grids G) c,
  grid_from_context c (dlaf_free_grid c m) = Abort /\
  (forall c', c' <> c -> grid_from_context c' (dlaf_free_grid c m) = grid_from_context c' m) /\
  (forall c', grid_from_context c' (dlaf_free_all_grids m) = Abort).
Proof.
  intros. unfold grid_from_context, dlaf_free_grid. split; [|split].
  - rewrite find_erase, Z.eqb_refl. reflexivity.
  - intros c' N. rewrite find_erase. apply Z.eqb_neq in N. rewrite N. reflexivity.
  - reflexivity.
Qed.

(** Refuted in general: create A, create B, free A, create C returns the context of B, and that context
    still denotes B. *)
Theorem C38_context_reused_refuted : forall (G : Type) (gA gB gC : G),
  gB <> gC -> exists (h : list (call G)) m cB cC m',
  reaches h m /\ h = [Free i32_max; Create gB cB; Create gA i32_max] /\ cB <> i32_max /\
  dlaf_create_grid gC m = (cC, m') /\
  cC = cB /\ grid_from_context cC m' = Ok gB /\ grid_from_context cC m' <> Ok gC.
Proof.
  intros G gA gB gC N.
  exists [Free i32_max; Create gB (i32_max - 1); Create gA i32_max], [(i32_max - 1, gB)],
    (i32_max - 1), (i32_max - 1), [(i32_max - 1, gB)].
  split; [|split; [reflexivity|split; [unfold i32_max; lia|split; [reflexivity|split; [reflexivity|split;[reflexivity|]]]]]].
  - change [(i32_max - 1, gB)] with (dlaf_free_grid i32_max [(i32_max - 1, gB); (i32_max, gA)]).
    apply r_free. eapply r_create; [eapply r_create; [constructor | reflexivity] | reflexivity].
  - cbn. congruence.
Qed.

(** A BLACS context registered again while live keeps the old grid. *)
Theorem C38_blacs_registered_twice_refuted : forall (G : Type) (g1 g2 : G), g1 <> g2 ->
  grid_from_context 0 (dlaf_create_grid_from_blacs 0 g2 (dlaf_create_grid_from_blacs 0 g1 [])) = Ok g1.
Proof. reflexivity. Qed.

(** The grid inferred from a BLACS grid gives every process its BLACS position: if the BLACS grid covers
    the communicator in row-major or column-major order, the detected ordering makes CommunicatorGrid
    assign the same coordinates; otherwise the program exits. *)
Theorem C38_blacs_positions : forall n nprow npcol pos,
  0 < nprow -> 0 < npcol -> n = nprow * npcol ->
  (forall r, 0 <= r < n -> 0 <= fst (pos r) < nprow /\ 0 <= snd (pos r) < npcol) ->
  match grid_ordering n nprow npcol pos with
  | Ok c => forall r, 0 <= r < n -> position (char2order c) nprow npcol r = pos r
  | _ => forall o, exists r, 0 <= r < n /\ position o nprow npcol r <> pos r
  end.
Proof.
  intros n P Q pos HP HQ -> B. unfold grid_ordering.
  assert (FA : forall f, forallb f (zrange 0 (P * Q)) = true <-> forall r, 0 <= r < P * Q -> f r = true).
  { intros f. rewrite forallb_forall. split; intros H r Hr; apply H; apply in_zrange; exact Hr. }
  assert (FE : forall f, forallb f (zrange 0 (P * Q)) = false -> exists r, 0 <= r < P * Q /\ f r = false).
  { intros f H. assert (exists r, In r (zrange 0 (P * Q)) /\ f r = false).
    { clear -H. induction (zrange 0 (P * Q)) as [|x l IH]; cbn in H; [discriminate|].
      destruct (f x) eqn:E; [destruct (IH H) as (r & Hr & Er); exists r; split; [right|]; auto | exists x; split; [left|]; auto]. }
    destruct H0 as (r & Hr & E). apply in_zrange in Hr. eauto. }
  assert (PP : forall o r, 0 <= r < P * Q ->
      (position o P Q r = pos r <-> r = computeLinearIndex o (pos r) (P, Q))).
  { intros o r Hr. split.
    - intros E. destruct (position_inv o P Q r HP HQ Hr) as [_ E2]. rewrite E in E2. auto.
    - intros E. destruct (B r Hr) as [B1 B2].
      destruct (position_of o P Q (fst (pos r)) (snd (pos r)) B1 B2) as [_ E2].
      rewrite <- surjective_pairing, <- E in E2. exact E2. }
  set (fr := fun rank => rank =? fst (pos rank) * Q + snd (pos rank)).
  set (fc := fun rank => rank =? snd (pos rank) * P + fst (pos rank)).
  destruct (forallb fc (zrange 0 (P * Q))) eqn:EC.
  - rewrite andb_false_r. intros r Hr. apply PP; [exact Hr|].
    apply FA with (r := r) in EC; [|exact Hr]. apply Z.eqb_eq in EC. exact EC.
  - destruct (forallb fr (zrange 0 (P * Q))) eqn:ER.
    + intros r Hr. apply PP; [exact Hr|].
      apply FA with (r := r) in ER; [|exact Hr]. apply Z.eqb_eq in ER. exact ER.
    + cbn [negb andb]. intros o. apply FE in EC, ER.
      destruct o; [destruct ER as (r & Hr & E) | destruct EC as (r & Hr & E)]; exists r;
        (split; [exact Hr|]); rewrite PP by exact Hr; apply Z.eqb_neq in E; exact E.
Qed.

(** ScaLAPACK descriptor translation: fields by position; only submatrices starting at (1, 1). *)
Theorem C38_descriptor : forall m n i j dtype ctxt gm gn mb nb rsrc csrc lld d,
  let desc := fun k => nth (Z.to_nat k) [dtype; ctxt; gm; gn; mb; nb; rsrc; csrc; lld] 0 in
  make_dlaf_descriptor m n i j desc = Ok d <->
  i = 1 /\ j = 1 /\ d = DlafDesc m n mb nb rsrc csrc 0 0 lld.
Proof.
  intros. unfold make_dlaf_descriptor. destruct (i =? 1) eqn:Ei; cbn [dlaf_assert bind].
  2: { apply Z.eqb_neq in Ei. split; [discriminate | tauto]. }
  destruct (j =? 1) eqn:Ej; cbn [dlaf_assert bind].
  2: { apply Z.eqb_neq in Ej. split; [discriminate | tauto]. }
  apply Z.eqb_eq in Ei, Ej. subst i j. cbn. split.
  - intros H. inversion H. auto.
  - intros (_ & _ & ->). reflexivity.
Qed.

(** Any sequence of dlaf_initialize / dlaf_finalize calls drives the library through properly alternating
    initialisations and finalisations: never two initialisations without a finalisation in between. *)
Theorem C38_initialise_alternates : forall (calls : list bool),
  let s := fold_left (fun s (b : bool) => if b then dlaf_initialize s else dlaf_finalize s) calls (CApi false 0 0) in
  n_init s = n_fini s + (if initialized s then 1 else 0) /\
  (initialized s = match rev calls with [] => false | b :: _ => b end).
Proof.
  intros calls. cbn zeta.
  assert (H : forall l, let s := fold_left (fun s (b : bool) => if b then dlaf_initialize s else dlaf_finalize s) l (CApi false 0 0) in
    n_init s = n_fini s + (if initialized s then 1 else 0)).
  { induction l as [|b l IH] using rev_ind; [reflexivity|]. cbn zeta in *. rewrite fold_left_app. cbn [fold_left].
    destruct (fold_left _ l _) as [[] ni nf]; destruct b; unfold dlaf_initialize, dlaf_finalize; cbn [initialized negb n_init n_fini] in *; lia. }
  split; [apply H|].
  induction calls as [|b l IH] using rev_ind; [reflexivity|]. rewrite rev_app_distr. cbn [rev app].
  rewrite fold_left_app. cbn [fold_left]. destruct (fold_left _ l _) as [[] ni nf]; destruct b; reflexivity.
Qed.

(** Concrete cases meeting the hypotheses *)
Example C38_example : exists m,
  reaches [Create 7%nat (i32_max - 2); Free (i32_max - 2); Create 6%nat (i32_max - 2);
           CreateBlacs 0 5%nat; Create 4%nat i32_max] m /\
  lifo [Create 7%nat (i32_max - 2); Free (i32_max - 2); Create 6%nat (i32_max - 2);
           CreateBlacs 0 5%nat; Create 4%nat i32_max] /\
  grid_from_context (i32_max - 2) m = Ok 7%nat /\ grid_from_context 0 m = Ok 5%nat.
Proof.
  eexists. split; [|split; [|split]].
  - eapply r_create; [eapply r_free, r_create; [apply r_blacs; eapply r_create; [constructor | reflexivity] | reflexivity] | reflexivity].
  - apply l_create. eapply l_free; [|reflexivity]. apply l_create. apply l_blacs; [apply l_create, l_nil | | lia].
    cbn. intros [F | []]. discriminate F.
  - reflexivity.
  - reflexivity.
Qed.
Example C38_example_blacs :
  grid_ordering 6 2 3 (fun r => (r mod 2, r / 2)) = Ok 67 /\ grid_ordering 6 2 3 (fun r => (r / 3, r mod 3)) = Ok 82 /\
  grid_ordering 6 2 3 (fun r => ((5 - r) / 3, (5 - r) mod 3)) = Abort.
Proof. vm_compute. auto. Qed.

(** ** Assumptions *)
Print Assumptions C38_fresh_and_correct.
Print Assumptions C38_stays_until_freed.
Print Assumptions C38_free_only_that_context.
Print Assumptions C38_context_reused_refuted.
Print Assumptions C38_blacs_registered_twice_refuted.
Print Assumptions C38_blacs_positions.
Print Assumptions C38_descriptor.
Print Assumptions C38_initialise_alternates.
