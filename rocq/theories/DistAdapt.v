(** * Distributed programs that branch on their data.
    A task that takes a branch records, in a tile, the value on which it branches (a local variable of the code); which actions a rank
    submits depends on these values. The program of a rank is here a function of the decisions taken at the recorded values; in a state of the
    machine of DistMachine.v it is the one for the values recorded so far. An action runs only after the branches before it in the
    program have been decided. *)
From Coq Require Import ZArith Lia List Bool.
From Verif Require Import Loop DenseJobs DistMachine.
Import ListNotations.
Local Open Scope nat_scope.

Section adaptive.
Context {V : Type}.
Variable members : comm -> list Z.
Variable ranks : list Z.
(** the tiles in which the values are recorded, the branch taken for a value, and the programs *)
Variable rec : tid -> bool.
Variable decide : V -> bool.
Variable prog : (tid -> bool) -> Z -> list (act V).

(** the decisions in a state, and the actions of rank r *)
Definition now (s : dstate V) : tid -> bool := fun t => decide (d_store s t).
Definition aprog (s : dstate V) : Z -> list (act V) := prog (now s).
(** the branches before action i of rank r have been decided *)
Definition decided (s : dstate V) (r : Z) (i : nat) : Prop :=
  forall i' a t, i' < i -> nth_error (aprog s r) i' = Some a -> In t (act_writes a) -> rec t = true -> d_stat s r i' = Done.
(** a step of the machine, by an action whose branches have been decided *)
Definition astep (eager : bool) (s s' : dstate V) : Prop :=
  exists r i, decided s r i /\ d_stat s' r i <> d_stat s r i /\ dstep members ranks (aprog s) eager s s'.
Inductive areach (st0 : tstore V) : dstate V -> Prop :=
| ar_init : areach st0 (dinit st0)
| ar_step : forall s s', areach st0 s -> astep true s s' -> areach st0 s'.
(** every action of the program that the recorded values select has completed *)
Definition afinal (s : dstate V) : Prop := dfinal ranks (aprog s) s.
(** as every_run (DistMachine.v): in every state that can be reached, if the run is complete Q holds; otherwise a step is possible, even
    if MPI waits for all the members; the calls of the members match; and no run is infinite *)
Definition every_adaptive_run (st0 : tstore V) (Q : tstore V -> Prop) : Prop :=
  forall s, areach st0 s ->
    (afinal s -> Q (d_store s)) /\
    (afinal s \/ exists s', astep false s s') /\
    ~ mismatch ranks (aprog s) s /\
    Acc (fun next now => astep true now next) s.

(** ** Programs that differ only after a branch that is decided differently *)
Inductive pd (d1 d2 : tid -> bool) : list (act V) -> list (act V) -> Prop :=
| pd_nil : pd d1 d2 [] []
| pd_cons : forall a l1 l2, pd d1 d2 l1 l2 -> pd d1 d2 (a :: l1) (a :: l2)
| pd_div : forall a t l1 l2, In t (act_writes a) -> rec t = true -> d1 t <> d2 t -> pd d1 d2 (a :: l1) (a :: l2).
Lemma pd_refl : forall d1 d2 l, pd d1 d2 l l.
Proof. induction l; constructor; assumption. Qed.
Lemma pd_app : forall d1 d2 l1 l2 m1 m2, pd d1 d2 l1 l2 -> pd d1 d2 m1 m2 -> pd d1 d2 (l1 ++ m1) (l2 ++ m2).
Proof. intros d1 d2 l1 l2 m1 m2 A B. induction A; cbn; [exact B|constructor; assumption|eapply pd_div; eassumption]. Qed.
Lemma pd_flat : forall {A} d1 d2 (f1 f2 : A -> list (act V)) l, (forall x, In x l -> pd d1 d2 (f1 x) (f2 x)) -> pd d1 d2 (flat_map f1 l) (flat_map f2 l).
Proof. intros A d1 d2 f1 f2 l. induction l as [|x l IH]; intros H; cbn; [constructor|]. apply pd_app; [apply H; left; reflexivity|apply IH; intros; apply H; right; assumption]. Qed.
Lemma pd_branch : forall d1 d2 a t l1 l2, In t (act_writes a) -> rec t = true -> (d1 t = d2 t -> pd d1 d2 l1 l2) -> pd d1 d2 (a :: l1) (a :: l2).
Proof. intros d1 d2 a t l1 l2 W R H. destruct (Bool.bool_dec (d1 t) (d2 t)) as [E|E]; [apply pd_cons; auto|eapply pd_div; eassumption]. Qed.
Lemma pd_agree : forall d1 d2 l1 l2, pd d1 d2 l1 l2 -> forall i,
  (forall i' a t, i' < i -> nth_error l1 i' = Some a -> nth_error l2 i' = Some a -> In t (act_writes a) -> rec t = true -> d1 t = d2 t) ->
  firstn i l1 = firstn i l2 /\ nth_error l1 i = nth_error l2 i.
Proof.
  induction 1 as [|a l1 l2 _ IH|a t l1 l2 W R N]; intros i H; [split; reflexivity| |].
  - destruct i as [|i]; [split; reflexivity|]. cbn. destruct (IH i) as [A B]; [|rewrite A; auto]. intros i' a' t L. apply (H (S i') a' t). lia.
  - destruct i as [|i]; [split; reflexivity|]. exfalso. apply N. apply (H 0 a t); [lia|reflexivity|reflexivity|exact W|exact R].
Qed.

(** ** Runs of the machine of a choreography *)
Section proof.
Variable dstar : tid -> bool.
Variable G : list (event V).
Variable st0 : tstore V.
Notation pstar := (prog dstar).
Hypothesis PROJ : forall r, In r ranks -> pstar r = proj members r G.
Hypothesis OK : Forall (event_ok members ranks) G.
(** the programs differ only after a branch *)
Hypothesis PD : forall d1 d2 r, pd d1 d2 (prog d1 r) (prog d2 r).
(** a value is recorded once *)
Hypothesis ONCE : forall r i i' a a' t, In r ranks -> nth_error (pstar r) i = Some a -> nth_error (pstar r) i' = Some a' ->
  In t (act_writes a) -> In t (act_writes a') -> rec t = true -> i = i'.
(** the choreography takes the branches that it records *)
Hypothesis AGREE : forall r a t, In r ranks -> In a (pstar r) -> In t (act_writes a) -> rec t = true -> decide (erun members G st0 t) = dstar t.

Notation idx := (idx members G). Notation ev := (ev members G). Notation val := (val members G st0).
Notation dinv := (dinv members G st0).
Notation st := (st members G).

(** a recorded value decides as dstar *)
Lemma recorded : forall s r i a t, dinv s -> In r ranks -> nth_error (pstar r) i = Some a -> In t (act_writes a) -> rec t = true -> d_stat s r i = Done -> now s t = dstar t.
Proof using PROJ OK ONCE AGREE.
  intros s r i a t I R N W RC DN. rewrite <- (AGREE r a t R (nth_error_In _ _ N) W RC). unfold now. f_equal.
  assert (TR : t_rank t = r). { destruct (idx_onto members ranks pstar G PROJ OK r i a R N) as (g & E & _). apply (own members ranks G OK r g a t E). right. exact W. }
  replace (erun members G st0 t) with (val (length G) t) by (unfold DistMachine.val; rewrite firstn_all; reflexivity).
  apply (di_store _ _ _ s I).
  - intros h Lh (b & Eb & Wb). rewrite TR in *. pose proof (nth_idx members ranks pstar G PROJ OK r h b Eb) as Nb. unfold DistMachine.st. rewrite (ONCE r _ i b a t R Nb N Wb W RC). exact DN.
  - intros h Lh (b & Eb & Wb). pose proof (ev_len members G _ _ _ Eb). lia.
Qed.
(** everything that has started comes after branches that have been decided *)
Definition within (s : dstate V) : Prop := forall r i, In r ranks -> d_stat s r i <> Pending ->
  forall i' a t, i' < i -> nth_error (pstar r) i' = Some a -> In t (act_writes a) -> rec t = true -> d_stat s r i' = Done.
Lemma prefix_now : forall s r i, dinv s -> In r ranks -> decided s r i -> firstn i (aprog s r) = firstn i (pstar r) /\ nth_error (aprog s r) i = nth_error (pstar r) i.
Proof using PROJ OK PD ONCE AGREE.
  intros s r i I R DC. apply (pd_agree (now s) dstar); [apply PD|]. intros i' a t L N1 N2 W RC. apply (recorded s r i' a t I R N2 W RC). apply (DC i' a t L N1 W RC).
Qed.
Lemma prefix_star : forall s r i, dinv s -> In r ranks ->
  (forall i' a t, i' < i -> nth_error (pstar r) i' = Some a -> In t (act_writes a) -> rec t = true -> d_stat s r i' = Done) ->
  firstn i (aprog s r) = firstn i (pstar r) /\ nth_error (aprog s r) i = nth_error (pstar r) i.
Proof using PROJ OK PD ONCE AGREE.
  intros s r i I R DC. apply (pd_agree (now s) dstar); [apply PD|]. intros i' a t L N1 N2 W RC. apply (recorded s r i' a t I R N2 W RC). apply (DC i' a t L N2 W RC).
Qed.
Lemma nth_firstn : forall {A} (l m : list A) i i', firstn i l = firstn i m -> i' < i -> nth_error l i' = nth_error m i'.
Proof.
  intros A l m i i' E L. revert l m i E L. induction i' as [|i' IH]; intros [|x l] [|y m] [|i] E L; cbn in *; try lia; try reflexivity; try discriminate; try congruence.
  injection E as _ E. apply (IH l m i E). lia.
Qed.
Lemma calls_firstn : forall s r i c, firstn i (aprog s r) = firstn i (pstar r) -> call_nr (aprog s) r i c = call_nr pstar r i c.
Proof using. intros s r i c E. unfold call_nr. rewrite E. reflexivity. Qed.
Lemma set_stat_where : forall (f : Z -> nat -> status) r i w r' i', set_stat f r i w r' i' <> f r' i' -> r' = r /\ i' = i.
Proof using.
  intros f r i w r' i' H. unfold set_stat in H. destruct (Z.eqb_spec r' r) as [E|E]; cbn [andb] in H; [|congruence]. destruct (Nat.eqb_spec i' i) as [E'|E']; [auto|congruence].
Qed.
(** which action takes a step *)
Lemma step_of : forall p eager (s s' : dstate V), dstep members ranks p eager s s' -> forall r i, d_stat s' r i <> d_stat s r i ->
  In r ranks /\ (exists w, w <> Pending /\ d_stat s r i <> Done /\ d_stat s' = set_stat (d_stat s) r i w).
Proof using.
  intros p eager s s' ST r i NE. destruct ST as [r1 i1 j R N P F|r1 i1 a R N P F CF|r1 i1 a vs R N P HC M]; cbn [d_stat completed] in NE; destruct (set_stat_where _ _ _ _ _ _ NE) as [-> ->]; (split; [exact R|]).
  - exists Done. split; [discriminate|]. split; [congruence|reflexivity].
  - exists Issued. split; [discriminate|]. split; [congruence|reflexivity].
  - exists Done. split; [discriminate|]. split; [congruence|reflexivity].
Qed.
Lemma to_star : forall s s', dinv s -> astep true s s' -> dstep members ranks pstar true s s'.
Proof using PROJ OK PD ONCE AGREE.
  intros s s' I (r & i & DC & NE & ST). destruct (step_of _ _ _ _ ST r i NE) as (R & _).
  destruct (prefix_now s r i I R DC) as [E1 E2].
  destruct ST as [r1 i1 j R1 N P F|r1 i1 a R1 N P F CF|r1 i1 a vs R1 N P HC M]; cbn [d_stat completed] in NE; destruct (set_stat_where _ _ _ _ _ _ NE) as [-> ->]; rewrite E2 in N.
  - apply ds_run; try assumption. intros i' b L Nb C. apply (F i' b L); [rewrite (nth_firstn _ _ i1 i' E1 L); exact Nb|exact C].
  - rewrite (calls_firstn s r1 i1 _ E1). apply ds_call; try assumption.
    + intros i' b L Nb C. apply (F i' b L); [rewrite (nth_firstn _ _ i1 i' E1 L); exact Nb|exact C].
    + intros i' b L Nb C. apply (CF i' b L); [rewrite (nth_firstn _ _ i1 i' E1 L); exact Nb|exact C].
  - rewrite (calls_firstn s r1 i1 _ E1) in M. apply ds_complete; try assumption. discriminate.
Qed.
Lemma within_step : forall s s', dinv s -> within s -> astep true s s' -> within s'.
Proof using PROJ OK PD ONCE AGREE.
  intros s s' I W (r & i & DC & NE & ST). destruct (step_of _ _ _ _ ST r i NE) as (R & w & NP & ND & ES). destruct (prefix_now s r i I R DC) as [E1 E2].
  intros r' i' R' NP' k a t L N Wt RC. rewrite ES in *.
  assert (D0 : d_stat s r' k = Done).
  { unfold set_stat in NP'. destruct (Z.eqb_spec r' r) as [->|_]; cbn [andb] in NP'; [|apply (W r' i' R' NP' k a t L N Wt RC)].
    destruct (Nat.eqb_spec i' i) as [->|_]; [|apply (W r i' R' NP' k a t L N Wt RC)]. apply (DC k a t L); [rewrite (nth_firstn _ _ i k E1 L); exact N|exact Wt|exact RC]. }
  unfold set_stat. destruct (Z.eqb_spec r' r) as [->|_]; [|exact D0]. destruct (Nat.eqb_spec k i) as [->|_]; [congruence|exact D0].
Qed.
Lemma areach_inv : forall s, areach st0 s -> dreach members ranks pstar st0 s /\ dinv s /\ within s.
Proof using PROJ OK PD ONCE AGREE.
  induction 1 as [|s s' _ (IH1 & IH2 & IH3) ST].
  - split; [constructor|]. split; [apply (dinv_init members ranks G st0 OK)|]. intros r i _ N. cbn in N. congruence.
  - pose proof (to_star s s' IH2 ST) as DS. split; [apply (dr_step _ _ _ _ s s' IH1 DS)|]. split; [apply (dstep_inv members ranks pstar G st0 PROJ OK s s' IH2 DS)|apply (within_step s s' IH2 IH3 ST)].
Qed.
(** complete runs *)
Lemma final_same : forall s, dinv s -> (afinal s \/ dfinal ranks pstar s) -> forall r, In r ranks -> aprog s r = pstar r.
Proof using PROJ OK PD ONCE AGREE.
  intros s I F r R. set (i := length (aprog s r) + length (pstar r)).
  assert (E : firstn i (aprog s r) = firstn i (pstar r)).
  { destruct F as [F|F].
    - apply (prefix_now s r i I R). intros i' a t L N _ _. apply (F r i' R). apply nth_error_Some. congruence.
    - apply (prefix_star s r i I R). intros i' a t L N _ _. apply (F r i' R). apply nth_error_Some. congruence. }
  rewrite !firstn_all2 in E by (unfold i; lia). exact E.
Qed.

(** Progress: the step of DistMachine.progress is by an action before which everything is done *)
Lemma progress_first : forall s, dinv s -> dfinal ranks pstar s \/ exists s' r i, dstep members ranks pstar false s s' /\ d_stat s' r i <> d_stat s r i /\
  (forall i' b, i' < i -> nth_error (pstar r) i' = Some b -> d_stat s r i' = Done).
Proof using PROJ OK.
  intros s I. destruct (dfinal_or_event members ranks pstar G st0 PROJ OK s I) as [F|(g & r & a & E & ND & EARLY)]; [left; exact F|right].
  assert (SETN : forall (f : Z -> nat -> status) q k w, w <> f q k -> set_stat f q k w q k <> f q k) by (intros f q k w H; unfold set_stat; rewrite Z.eqb_refl, Nat.eqb_refl; exact H).
  assert (FREE : forall q b, ev q g = Some b -> forall i' b', i' < idx q g -> nth_error (pstar q) i' = Some b' -> d_stat s q i' = Done).
  { intros q b Eb i' b' L N. destruct (idx_onto members ranks pstar G PROJ OK q i' b' (ev_rank members ranks G OK _ _ _ Eb) N) as (h & Eh & <-).
    apply (EARLY h q b'); [|exact Eh]. apply (idx_lt_inv members G q h g b' b Eh Eb L). }
  assert (PEND : forall q b, ev q g = Some b -> st s q g = Pending -> exists s' r i, dstep members ranks pstar false s s' /\ d_stat s' r i <> d_stat s r i /\
    (forall i' b, i' < i -> nth_error (pstar r) i' = Some b -> d_stat s r i' = Done)).
  { intros q [j|b] Eb P.
    - eexists. exists q, (idx q g). split; [|split; [|apply (FREE q _ Eb)]].
      + apply (ds_run members ranks pstar false s q (idx q g) j (ev_rank members ranks G OK _ _ _ Eb) (nth_idx members ranks pstar G PROJ OK _ _ _ Eb) P). intros i' b' L N _. apply (FREE q _ Eb i' b' L N).
      + cbn [d_stat]. apply SETN. unfold DistMachine.st in P. rewrite P. discriminate.
    - eexists. exists q, (idx q g). split; [|split; [|apply (FREE q _ Eb)]].
      + apply (ds_call members ranks pstar false s q (idx q g) b (ev_rank members ranks G OK _ _ _ Eb) (nth_idx members ranks pstar G PROJ OK _ _ _ Eb) P).
        * intros i' b' L N _. apply (FREE q _ Eb i' b' L N).
        * intros i' b' L N _. rewrite (FREE q _ Eb i' _ L N). discriminate.
      + cbn [d_stat]. apply SETN. unfold DistMachine.st in P. rewrite P. discriminate. }
  destruct (st s r g) eqn:S; [apply (PEND r a E S)| |congruence].
  destruct a as [j|a]; [exfalso; apply (di_local _ _ _ s I r g j E S)|].
  destruct (ev_coll members ranks G OK r g a E) as (part & E1 & MR & EA).
  assert (D : (forall q, In q (members (ca_comm a)) -> st s q g <> Pending) \/ exists q, In q (members (ca_comm a)) /\ st s q g = Pending).
  { clear. induction (members (ca_comm a)) as [|q l [A|(q' & A & B)]].
    - left. intros q [].
    - destruct (st s q g) eqn:S.
      + right. exists q. split; [left; reflexivity|exact S].
      + left. intros q' [<-|I0]; [congruence|apply A; exact I0].
      + left. intros q' [<-|I0]; [congruence|apply A; exact I0].
    - right. exists q'. split; [right; exact A|exact B]. }
  destruct D as [ALL|(q & MQ & PQ)]; [|destruct (coll_ev members ranks G OK _ part g q E1 MQ) as [Eq _]; apply (PEND q _ Eq PQ)].
  assert (exists vs, map (d_msg s (ca_comm a) (call_nr pstar r (idx r g) (ca_comm a))) (ca_needs a) = map Some vs) as [vs EVS].
  { rewrite (call_nr_global members ranks pstar G PROJ OK r g a E). pose proof (proj1 (Forall_forall _ _) OK) as OKF. pose proof (OKF _ (nth_error_In _ _ E1)) as OKe.
    assert (X : forall q, In q (ca_needs a) -> exists v, d_msg s (ca_comm a) (gcalls G (ca_comm a) g) q = Some v).
    { intros q Iq. rewrite EA in Iq. destruct (eo_needs _ _ _ OKe _ part eq_refl r q MR Iq) as [MQ NQ]. destruct (coll_ev members ranks G OK _ part g q E1 MQ) as [Eq CQ].
      pose proof (di_msg _ _ _ s I q g (part q) Eq) as DM. rewrite CQ in DM. rewrite DM. pose proof (ALL q MQ).
      destruct (ca_in (part q)) as [t|]; [|congruence]. exists (val g t). destruct (st s q g); [congruence|reflexivity|reflexivity]. }
    clear -X. induction (ca_needs a) as [|q l IH]; [exists []; reflexivity|]. destruct IH as [vs EV]; [intros q' I0; apply X; right; exact I0|].
    destruct (X q (or_introl eq_refl)) as [v V0]. exists (v :: vs). cbn. rewrite V0, EV. reflexivity. }
  eexists. exists r, (idx r g). split; [|split; [|apply (FREE r _ E)]].
  - apply (ds_complete members ranks pstar false s r (idx r g) a vs (ev_rank members ranks G OK _ _ _ E) (nth_idx members ranks pstar G PROJ OK _ _ _ E) S); [|exact EVS].
    intros _ q MQ. destruct (coll_ev members ranks G OK _ part g q E1 MQ) as [Eq CQ]. exists (idx q g), (ACom (part q)). split; [apply (nth_idx members ranks pstar G PROJ OK); exact Eq|]. split; [|split].
    + cbn. rewrite CQ. destruct (comm_eqb_spec (ca_comm a) (ca_comm a)); congruence.
    + rewrite <- CQ, (call_nr_global members ranks pstar G PROJ OK q g _ Eq), CQ, (call_nr_global members ranks pstar G PROJ OK r g _ E). reflexivity.
    + apply (ALL q MQ).
  - cbn [d_stat completed]. apply SETN. unfold DistMachine.st in S. rewrite S. discriminate.
Qed.
Lemma from_star : forall s s' r i, dinv s -> within s -> dstep members ranks pstar false s s' -> d_stat s' r i <> d_stat s r i ->
  (forall i' b, i' < i -> nth_error (pstar r) i' = Some b -> d_stat s r i' = Done) -> astep false s s'.
Proof using PROJ OK PD ONCE AGREE.
  intros s s' r i I W ST NE FREE. destruct (step_of _ _ _ _ ST r i NE) as (R & _).
  destruct (prefix_star s r i I R ltac:(intros i' a t L N _ _; apply (FREE i' a L N))) as [E1 E2].
  exists r, i. split; [|split; [exact NE|]].
  { intros i' a t L N _ _. apply (FREE i' a L). rewrite <- (nth_firstn _ _ i i' E1 L). exact N. }
  destruct ST as [r1 i1 j R1 N P F|r1 i1 a R1 N P F CF|r1 i1 a vs R1 N P HC M]; cbn [d_stat completed] in NE; destruct (set_stat_where _ _ _ _ _ _ NE) as [-> ->]; rewrite <- E2 in N.
  - apply ds_run; try assumption. intros i' b L Nb C. apply (F i' b L); [rewrite <- (nth_firstn _ _ i1 i' E1 L); exact Nb|exact C].
  - rewrite <- (calls_firstn s r1 i1 _ E1). apply ds_call; try assumption.
    + intros i' b L Nb C. apply (F i' b L); [rewrite <- (nth_firstn _ _ i1 i' E1 L); exact Nb|exact C].
    + intros i' b L Nb C. apply (CF i' b L); [rewrite <- (nth_firstn _ _ i1 i' E1 L); exact Nb|exact C].
  - rewrite <- (calls_firstn s r1 i1 _ E1) in M. apply ds_complete; try assumption.
    intros _ q MQ. rewrite (calls_firstn s r1 i1 _ E1). destruct (HC eq_refl q MQ) as (k & b & N1 & N2 & N3 & N4).
    assert (RQ : In q ranks). { destruct (idx_onto members ranks pstar G PROJ OK r1 i1 (ACom a) R1 ltac:(rewrite <- E2; exact N)) as (g & Eg & _).
      destruct (ev_coll members ranks G OK _ _ _ Eg) as (part & G1 & _). destruct (coll_ev members ranks G OK _ part g q G1 MQ) as [Eq _]. apply (ev_rank members ranks G OK _ _ _ Eq). }
    destruct (prefix_star s q k I RQ ltac:(intros i' a' t L Na Wt RC; apply (W q k RQ N4 i' a' t L Na Wt RC))) as [F1 F2].
    exists k, b. rewrite F2, (calls_firstn s q k _ F1). auto.
Qed.

Theorem every_adaptive_run_intro : forall Q : tstore V -> Prop, (forall st', (forall x, st' x = erun members G st0 x) -> Q st') -> every_adaptive_run st0 Q.
Proof using PROJ OK PD ONCE AGREE.
  intros Q QS s RS. destruct (areach_inv s RS) as (DR & I & W).
  destruct (every_run_intro members ranks pstar G st0 PROJ OK Q QS s DR) as (C1 & _ & C3 & C4). split; [|split; [|split]].
  - intros F. apply C1. pose proof (final_same s I (or_introl F)) as EQ. intros r i R L. apply (F r i R). rewrite EQ by exact R. exact L.
  - destruct (progress_first s I) as [F|(s' & r & i & ST & NE & FR)]; [left|right; exists s'; apply (from_star s s' r i I W ST NE FR)].
    pose proof (final_same s I (or_intror F)) as EQ. intros r i R L. apply (F r i R). rewrite <- EQ by exact R. exact L.
  - intros (c & k & q1 & q2 & i1 & i2 & a1 & a2 & R1 & R2 & N1 & N2 & X1 & X2 & M1 & M2 & S1 & S2 & DF). apply C3.
    destruct (prefix_star s q1 i1 I R1 ltac:(intros i' a' t L Na Wt RC; apply (W q1 i1 R1 S1 i' a' t L Na Wt RC))) as [F1 F2].
    destruct (prefix_star s q2 i2 I R2 ltac:(intros i' a' t L Na Wt RC; apply (W q2 i2 R2 S2 i' a' t L Na Wt RC))) as [G1 G2].
    rewrite F2 in N1. rewrite G2 in N2. rewrite (calls_firstn s q1 i1 _ F1) in M1. rewrite (calls_firstn s q2 i2 _ G1) in M2.
    exists c, k, q1, q2, i1, i2, a1, a2. repeat (split; [assumption|]). assumption.
  - clear C1 C3. induction C4 as [s _ IH]. constructor. intros s' ST. destruct (areach_inv s' (ar_step st0 s s' RS ST)) as (DR' & I' & W').
    apply (IH s' (to_star s s' I ST) (ar_step st0 s s' RS ST) DR' I' W').
Qed.
End proof.

(** what holds of every run is about at least one complete run *)
Theorem every_adaptive_run_final : forall st0 Q, every_adaptive_run st0 Q -> exists s, areach st0 s /\ afinal s /\ Q (d_store s).
Proof.
  intros st0 Q ER.
  assert (X : forall s, areach st0 s -> exists s', areach st0 s' /\ afinal s').
  { intros s R0. destruct (ER s R0) as (_ & _ & _ & AC). revert R0. induction AC as [s _ IH]. intros R. destruct (ER s R) as (_ & [F|[s' ST]] & _); [eauto|].
    assert (ST' : astep true s s').
    { destruct ST as (r & i & DC & NE & ST). exists r, i. split; [exact DC|]. split; [exact NE|]. destruct ST; [eapply ds_run; eassumption|eapply ds_call; eassumption|eapply ds_complete; try eassumption; discriminate]. }
    apply (IH s' ST'). apply (ar_step _ s s' R ST'). }
  destruct (X _ (ar_init st0)) as (s & R & F). exists s. split; [exact R|]. split; [exact F|]. apply (ER s R). exact F.
Qed.
End adaptive.
