(** The communications of the rank-one problem. *)
From Coq Require Import ZArith Lia List Bool Reals.
From Verif Require Import CInt Loop DistModel DenseJobs DistMachine DistGrid DcModel DcRotModel DcRotProofs DcCommModel.
Import ListNotations.
Local Open Scope Z_scope.

Section proof.
Variables P Q : Z.
Variable src : coord -> Z.
Hypothesis HP : 0 < P.
Hypothesis HQ : 0 < Q.
Hypothesis HS : forall rc, 0 <= src rc < gs P Q rc.
Notation rks := (ranks P Q).
Notation mem := (members P Q).
Notation trk := (tile_rank P Q src).

(** ** Phases: one kernel on several ranks; one collective on all the rows or columns *)
Definition hasz (x : Z) (l : list Z) : bool := existsb (Z.eqb x) l.
Lemma hasz_in : forall x l, hasz x l = true <-> In x l.
Proof. intros x l. unfold hasz. rewrite existsb_exists. split; [intros (y & I & E); apply Z.eqb_eq in E; subst; exact I|intros I; exists x; split; [exact I|apply Z.eqb_refl]]. Qed.
Definition phase (l : list Z) (job : Z -> tjob tile) : list (event tile) := map (fun r => ELoc r (job r)) l.
Lemma phase_val : forall job, (forall r x, In x (tj_in (job r)) \/ x = tj_out (job r) -> t_rank x = r) -> forall l, NoDup l -> forall st x,
  erun mem (phase l job) st x = if hasz (t_rank x) l && tid_eqb x (tj_out (job (t_rank x))) then tval (job (t_rank x)) st else st x.
Proof using.
  intros job RK. induction 1 as [|r l NI ND IH]; intros st x; [reflexivity|]. cbn [phase map]. rewrite erun_cons. fold (phase l job). rewrite IH. cbn [eexec].
  assert (OUT : t_rank (tj_out (job r)) = r) by (apply RK; right; reflexivity).
  change (hasz (t_rank x) (r :: l)) with ((t_rank x =? r) || hasz (t_rank x) l). destruct (Z.eqb_spec (t_rank x) r) as [E|N]; cbn [orb].
  - assert (H : hasz (t_rank x) l = false) by (apply Bool.not_true_iff_false; rewrite hasz_in; rewrite E; exact NI). rewrite H. cbn [andb]. rewrite E. unfold texec, tset. reflexivity.
  - assert (U : forall y, t_rank y <> r -> texec st (job r) y = st y) by (intros y Ny; unfold texec, tset; destruct (tid_eqb_spec y (tj_out (job r))) as [->|]; [contradiction|reflexivity]).
    destruct (hasz (t_rank x) l && tid_eqb x (tj_out (job (t_rank x)))); [|apply U; exact N]. unfold tval. f_equal.
    + apply map_ext_in. intros y I. apply U. rewrite (RK (t_rank x) y (or_introl I)). exact N.
    + apply U. rewrite (RK (t_rank x) _ (or_intror eq_refl)). exact N.
Qed.
Definition cphase (rc : coord) (l : list Z) (part : Z -> cact tile) : list (event tile) := map (fun a => EColl (cm rc a) part) l.
Lemma coll_out : forall rc a (part : Z -> cact tile) st x, co Q rc (t_rank x) <> a -> eexec mem st (EColl (cm rc a) part) x = st x.
Proof using HP HQ. intros rc a part st x N. cbn [eexec]. destruct (member_spec mem (cm rc a) (t_rank x)) as [I|]; [|reflexivity]. apply (in_cm P Q HP HQ) in I. destruct I; contradiction. Qed.
Lemma cphase_val : forall rc (part : Z -> cact tile),
  (forall r t, ca_in (part r) = Some t -> t_rank t = r) -> (forall r q, In r rks -> In q (ca_needs (part r)) -> co Q rc q = co Q rc r) ->
  forall l, NoDup l -> forall st x, In (t_rank x) rks ->
  erun mem (cphase rc l part) st x = if hasz (co Q rc (t_rank x)) l then eexec mem st (EColl (cm rc (co Q rc (t_rank x))) part) x else st x.
Proof using HP HQ.
  intros rc part RK ND0. induction 1 as [|a l NI ND IH]; intros st x RX; [reflexivity|]. cbn [cphase map]. rewrite erun_cons. fold (cphase rc l part). rewrite IH by exact RX.
  set (b := co Q rc (t_rank x)). change (hasz b (a :: l)) with ((b =? a) || hasz b l). destruct (Z.eqb_spec b a) as [E|N]; cbn [orb].
  - assert (H : hasz b l = false) by (apply Bool.not_true_iff_false; rewrite hasz_in; rewrite E; exact NI). rewrite H, E. reflexivity.
  - rewrite (coll_out rc a) by exact N. destruct (hasz b l); [|reflexivity]. set (st1 := eexec mem st (EColl (cm rc a) part)).
    assert (U : forall y, co Q rc (t_rank y) = b -> st1 y = st y) by (intros y Ey; apply coll_out; rewrite Ey; exact N).
    cbn [eexec]. rewrite (U x eq_refl). destruct (member mem (cm rc b) (t_rank x) && _); [|reflexivity]. f_equal. apply map_ext_in. intros q I.
    destruct (ca_in (part q)) as [t|] eqn:C; [|reflexivity]. apply U. rewrite (RK q t C). apply ND0; [exact RX|exact I].
Qed.
Lemma phase_proj : forall l job r, NoDup l -> proj mem r (phase l job) = if hasz r l then [ALoc (job r)] else [].
Proof using.
  intros l job r ND. induction ND as [|q l NI ND IH]; [reflexivity|]. change (proj mem r (phase (q :: l) job)) with (olist (eact mem r (ELoc q (job q))) ++ proj mem r (phase l job)). rewrite IH.
  change (hasz r (q :: l)) with ((r =? q) || hasz r l). cbn [eact]. rewrite (Z.eqb_sym r). destruct (Z.eqb_spec q r) as [->|N]; [|reflexivity]. cbn [orb olist].
  assert (H : hasz r l = false) by (apply Bool.not_true_iff_false; rewrite hasz_in; exact NI). rewrite H. reflexivity.
Qed.
Lemma cphase_proj : forall rc part r, In r rks -> proj mem r (cphase rc (zrange 0 (gs P Q rc)) part) = [ACom (part r)].
Proof using HP HQ.
  intros rc part r R. assert (L : forall l, NoDup l -> proj mem r (cphase rc l part) = if hasz (co Q rc r) l then [ACom (part r)] else []).
  { intros l. induction 1 as [|q l NI ND IH]; [reflexivity|]. change (proj mem r (cphase rc (q :: l) part)) with (olist (eact mem r (EColl (cm rc q) part)) ++ proj mem r (cphase rc l part)). rewrite IH.
    change (hasz (co Q rc r) (q :: l)) with ((co Q rc r =? q) || hasz (co Q rc r) l). cbn [eact]. destruct (member_spec mem (cm rc q) r) as [I|NI'].
    - apply (in_cm P Q HP HQ) in I as [_ E]. rewrite E, Z.eqb_refl. cbn [orb olist]. assert (H : hasz q l = false) by (apply Bool.not_true_iff_false; rewrite hasz_in; exact NI). rewrite H. reflexivity.
    - destruct (Z.eqb_spec (co Q rc r) q) as [E|]; [|reflexivity]. exfalso. apply NI'. apply (in_cm P Q HP HQ). auto. }
  rewrite L by apply zrange_NoDup. assert (H : hasz (co Q rc r) (zrange 0 (gs P Q rc)) = true); [|rewrite H; reflexivity]. apply hasz_in, in_zrange. apply (in_ranks_rc P Q HP HQ rc) in R. lia.
Qed.
Lemma rks_NoDup : NoDup rks.
Proof using HP HQ.
  unfold ranks. assert (G : forall l, NoDup l -> (forall a, In a l -> 0 <= a < P) -> NoDup (flat_map (fun a => map (rk Q a) (zrange 0 Q)) l)).
  { induction 1 as [|a l NI ND IH]; intros H; [constructor|]. cbn [flat_map].
    assert (M : NoDup (map (rk Q a) (zrange 0 Q))) by (apply FinFun.Injective_map_NoDup; [intros x y; unfold rk; lia|apply zrange_NoDup]).
    assert (D : forall x, In x (map (rk Q a) (zrange 0 Q)) -> ~ In x (flat_map (fun a => map (rk Q a) (zrange 0 Q)) l)).
    { intros x I J. apply in_map_iff in I as (b & <- & Lb). apply in_zrange in Lb. apply in_flat_map in J as (a' & Ia & J). apply in_map_iff in J as (b' & E & Lb'). apply in_zrange in Lb'.
      destruct (co_rk P Q HP HQ a b (H a (or_introl eq_refl)) Lb) as [C1 _]. destruct (co_rk P Q HP HQ a' b' (H a' (or_intror Ia)) Lb') as [C2 _]. rewrite E in C2. rewrite C2 in C1. subst. contradiction. }
    specialize (IH ltac:(intros; apply H; right; assumption)). revert M D. generalize (map (rk Q a) (zrange 0 Q)). intros m M. induction M as [|y m Ny M IHm]; intros D; [exact IH|].
    cbn [app]. constructor; [|apply IHm; intros; apply D; right; assumption]. intros I. apply in_app_or in I as [I|I]; [contradiction|]. apply (D y); [left; reflexivity|exact I]. }
  apply G; [apply zrange_NoDup|]. intros a I. apply in_zrange in I. exact I.
Qed.

Section rank1.
Variable k : Z.
Variables i_begin i_end : Z.
Variable lam : Z -> Z -> tile.
Variable w : Z -> tile.
Variable sq : Z -> tile -> tile.
Hypothesis LB : 0 <= i_begin <= i_end.
Hypothesis SQ : forall r v v', (forall a b, v a b = v' a b) -> forall a b, sq r v a b = sq r v' a b.

Definition jLam (i r : Z) : tjob tile := TJob [] (tLam r i) (fun _ _ => lam r i).
Definition jW (r : Z) : tjob tile := TJob [] (tW r) (fun _ _ => w r).
Definition jS (r : Z) : tjob tile := TJob [tW r] (tS r) (in1 (sq r)).
Definition colranks (c : Z) : list Z := map (fun p => rk Q p c) (zrange 0 P).
Definition bpart (i r : Z) : cact tile := let root := rk Q (co Q Row r) (trk Col i) in
  if co Q Col r =? trk Col i then bsend (CRow (co Q Row r)) root (tLam r i) else brecv (CRow (co Q Row r)) root (tLam r i).
Definition wpart (r : Z) : cact tile := all_reduce P Q (CRow (co Q Row r)) Rmult (tW r).
Definition spart (r : Z) : cact tile := all_reduce P Q (CCol (co Q Col r)) Rplus (tS r).
Definition g1 := flat_map (fun i => phase (colranks (trk Col i)) (jLam i)) (zrange i_begin i_end).
Definition g2 := if 1 <? Q then flat_map (fun i => cphase Row (zrange 0 P) (bpart i)) (zrange i_begin i_end) else [].
Definition g3 := phase rks jW.
Definition g4 := if 1 <? Q then cphase Row (zrange 0 P) wpart else [].
Definition g5 := phase rks jS.
Definition g6 := if 1 <? P then cphase Col (zrange 0 Q) spart else [].
Definition gall := g1 ++ g2 ++ (if k <=? 2 then [] else g3 ++ g4 ++ g5 ++ g6).

Lemma trkc : forall i, i_begin <= i < i_end -> 0 <= trk Col i < Q.
Proof using HP HQ HS LB. intros i Li. apply (trk_range P Q src HP HQ HS Col). lia. Qed.
Lemma colranks_in : forall r c, In r rks -> 0 <= c < Q -> hasz r (colranks c) = (co Q Col r =? c).
Proof using HP HQ.
  intros r c R Lc. destruct (Z.eqb_spec (co Q Col r) c) as [E|N].
  - apply hasz_in. apply in_map_iff. exists (co Q Row r). split; [rewrite <- E; apply (rk_co P Q HP HQ)|]. apply in_zrange. apply (in_ranks P Q HP HQ) in R. lia.
  - apply Bool.not_true_iff_false. rewrite hasz_in. intros I. apply in_map_iff in I as (p & <- & Lp). apply in_zrange in Lp. apply N. apply (co_rk P Q HP HQ); assumption.
Qed.
Lemma colranks_nd : forall c, 0 <= c < Q -> NoDup (colranks c).
Proof using HP HQ. intros c Lc. apply FinFun.Injective_map_NoDup; [intros x y; unfold rk; nia|apply zrange_NoDup]. Qed.
Lemma map_flat1 : forall {A B} (f : A -> B) l, map f l = flat_map (fun x => [f x]) l.
Proof. induction l as [|x l IH]; cbn; [reflexivity|]. rewrite IH. reflexivity. Qed.
Lemma gall_proj : forall r, In r rks -> rank1_prog P Q src k i_begin i_end lam w sq r = proj mem r gall.
Proof using HP HQ HS LB.
  intros r R. unfold rank1_prog, gall. rewrite !proj_app'. assert (HR : hasz r rks = true) by (apply hasz_in; exact R). f_equal; [|f_equal].
  - unfold g1. rewrite DistGrid.proj_flat. apply flat_map_ext_in. intros i I. apply in_zrange in I. rewrite phase_proj by (apply colranks_nd, trkc; exact I). rewrite colranks_in by (exact R || apply trkc; exact I). reflexivity.
  - unfold g2. destruct (1 <? Q); [|reflexivity]. rewrite DistGrid.proj_flat, map_flat1. apply flat_map_ext_in. intros i I. rewrite (cphase_proj Row) by exact R. reflexivity.
  - destruct (k <=? 2); [reflexivity|]. rewrite !proj_app'. unfold g3, g5. rewrite !phase_proj by apply rks_NoDup. rewrite HR. cbn [app]. f_equal. unfold g4, g6. f_equal; [|f_equal].
    + destruct (1 <? Q); [|reflexivity]. rewrite (cphase_proj Row) by exact R. reflexivity.
    + destruct (1 <? P); [|reflexivity]. rewrite (cphase_proj Col) by exact R. reflexivity.
Qed.
Lemma phase_ok : forall l job, (forall r, In r l -> In r rks) -> (forall r x, In x (tj_in (job r)) \/ x = tj_out (job r) -> t_rank x = r) -> Forall (event_ok mem rks) (phase l job).
Proof using. intros l job L RK. apply Forall_forall. intros e I. apply in_map_iff in I as (r & <- & I). apply (eloc_ok P Q); [apply L; exact I|apply RK]. Qed.
Lemma cphase_ok : forall rc (part : Z -> cact tile), (forall r, ca_comm (part r) = cm rc (co Q rc r)) -> (forall r q, In r rks -> In q rks -> co Q rc r = co Q rc q -> ca_sig (part r) = ca_sig (part q)) ->
  (forall r t, ca_in (part r) = Some t \/ ca_out (part r) = Some t -> t_rank t = r) ->
  (forall r q, In r rks -> In q (ca_needs (part r)) -> In q rks /\ co Q rc q = co Q rc r /\ ca_in (part q) <> None) ->
  forall l, Forall (event_ok mem rks) (cphase rc l part).
Proof using HP HQ.
  intros rc part HC HG HR HN l. apply Forall_forall. intros e I. apply in_map_iff in I as (a & <- & _).
  assert (M : forall r, In r (mem (cm rc a)) -> In r rks /\ co Q rc r = a) by (intros r I; apply (in_cm P Q HP HQ) in I; exact I).
  constructor.
  - intros r x E. cbn [eact] in E. destruct (member_spec mem (cm rc a) r) as [I|]; [|discriminate]. apply M, I.
  - intros r x t E T. cbn [eact] in E. destruct (member_spec mem (cm rc a) r) as [I|]; [|discriminate]. injection E as <-. cbn [act_reads act_writes] in T. apply HR.
    destruct T as [T|T]; [left; destruct (ca_in (part r))|right; destruct (ca_out (part r))]; cbn in T; try contradiction; destruct T as [<-|[]]; reflexivity.
  - intros c' p' E r I. injection E as <- <-. destruct (M r I) as [_ F]. rewrite HC, F. reflexivity.
  - intros c' p' E r q I J. injection E as <- <-. destruct (M r I), (M q J). apply HG; congruence || assumption.
  - intros c' p' E r q I J. injection E as <- <-. destruct (M r I) as [R F]. destruct (HN r q R J) as (A & B & C). split; [|exact C]. apply (in_cm P Q HP HQ). split; [exact A|congruence].
Qed.
Lemma bpart_ok : forall i, i_begin <= i < i_end -> Forall (event_ok mem rks) (cphase Row (zrange 0 P) (bpart i)).
Proof using HP HQ HS LB.
  intros i Li. pose proof (trkc i Li) as LC. apply cphase_ok.
  - intros r. unfold bpart. destruct (_ =? _); reflexivity.
  - intros r q _ _ E. unfold bpart. rewrite !E. do 2 destruct (_ =? _); reflexivity.
  - intros r t. unfold bpart. destruct (_ =? _); cbn; intros [E|E]; try discriminate; injection E as <-; reflexivity.
  - intros r q R I. unfold bpart in I. destruct (Z.eqb_spec (co Q Col r) (trk Col i)); cbn [bsend brecv ca_needs In] in I; [destruct I|]. destruct I as [<-|[]].
    assert (LR : 0 <= co Q Row r < P) by (apply (in_ranks P Q HP HQ) in R; lia). destruct (co_rk P Q HP HQ (co Q Row r) (trk Col i) LR LC) as [C1 C2].
    split; [apply (mk_in P Q HP HQ Row); assumption|]. split; [exact C1|]. unfold bpart. rewrite C2, Z.eqb_refl. discriminate.
Qed.
Lemma red_ok : forall rc op t l, (forall r, t_rank (t r) = r) -> Forall (event_ok mem rks) (cphase rc l (fun r => all_reduce P Q (cm rc (co Q rc r)) op (t r))).
Proof using HP HQ.
  intros rc op t l TR. apply cphase_ok.
  - reflexivity.
  - reflexivity.
  - intros r x [E|E]; injection E as <-; apply TR.
  - intros r q R I. cbn [all_reduce ca_needs] in I. apply (in_cm P Q HP HQ) in I as [A B]. split; [exact A|]. split; [exact B|]. discriminate.
Qed.
Lemma gall_ok : Forall (event_ok mem rks) gall.
Proof using HP HQ HS LB.
  unfold gall. apply Forall_app. split; [|apply Forall_app; split].
  - apply forall_flat. intros i I. apply in_zrange in I. apply phase_ok.
    + intros r J. apply in_map_iff in J as (p & <- & Lp). apply in_zrange in Lp. apply (mk_in P Q HP HQ Row); [exact Lp|apply trkc; exact I].
    + intros r x [[]| ->]. reflexivity.
  - unfold g2. destruct (1 <? Q); [|constructor]. apply forall_flat. intros i I. apply in_zrange in I. apply bpart_ok. exact I.
  - destruct (k <=? 2); [constructor|]. apply Forall_app. split; [apply phase_ok; [auto|intros r x [[]| ->]; reflexivity]|]. apply Forall_app. split; [|apply Forall_app; split].
    + unfold g4. destruct (1 <? Q); [|constructor]. apply (red_ok Row). reflexivity.
    + apply phase_ok; [auto|]. intros r x [[<-|[]]| ->]; reflexivity.
    + unfold g6. destruct (1 <? P); [|constructor]. apply (red_ok Col). reflexivity.
Qed.

(** ** Values *)
Lemma inr_rk : forall p c, 0 <= p < P -> 0 <= c < Q -> In (rk Q p c) rks.
Proof using HP HQ. intros p c A B. apply (mk_in P Q HP HQ Row); assumption. Qed.
(** products over a process row, sums over a process column *)
Definition prow (p : Z) : tile := fun a b => fold_left (fun s c => (s * w (rk Q p c) a b)%R) (zrange 1 Q) (w (rk Q p 0) a b).
Definition scol (c : Z) : tile := fun a b => fold_left (fun s p => (s + sq (rk Q p c) (prow p) a b)%R) (zrange 1 P) (sq (rk Q 0 c) (prow 0) a b).
Lemma fold_map : forall {A B C} (f : A -> B -> A) (g : C -> B) l x, fold_left f (map g l) x = fold_left (fun s c => f s (g c)) l x.
Proof. induction l as [|c l IH]; intros x; cbn; [reflexivity|]. apply IH. Qed.
Lemma fold_ext : forall {A B} (f g : A -> B -> A) l, (forall a b, In b l -> f a b = g a b) -> forall x, fold_left f l x = fold_left g l x.
Proof. induction l as [|c l IH]; intros H x; cbn; [reflexivity|]. rewrite H by (left; reflexivity). apply IH. intros a b I. apply H. right. exact I. Qed.
(** the effect of an all-reduce *)
Lemma red_val : forall rc op (t : Z -> tid) st r, In r rks -> (forall q, t_rank (t q) = q) -> forall a b,
  eexec mem st (EColl (cm rc (co Q rc r)) (fun q => all_reduce P Q (cm rc (co Q rc q)) op (t q))) (t r) a b =
  fold_left (fun s c => op s (st (t (mk Q rc (co Q rc r) c)) a b)) (zrange 1 (gs P Q (other rc))) (st (t (mk Q rc (co Q rc r) 0)) a b).
Proof using HP HQ.
  intros rc op t st r R TR a b. cbn [eexec]. rewrite TR. destruct (member_spec mem (cm rc (co Q rc r)) r) as [_|N]; [|exfalso; apply N; apply (in_cm P Q HP HQ); auto]. cbn [all_reduce ca_out ca_needs ca_fun andb]. rewrite teq_t.
  assert (ME : mem (cm rc (co Q rc r)) = map (fun c => mk Q rc (co Q rc r) c) (zrange 0 (gs P Q (other rc)))).
  { apply (in_ranks_rc P Q HP HQ rc) in R as [R _]. destruct rc; cbn [cm members mk gs other] in *.
    - replace ((0 <=? co Q Row r) && (co Q Row r <? P)) with true by lia. reflexivity.
    - replace ((0 <=? co Q Col r) && (co Q Col r <? Q)) with true by lia. reflexivity. }
  rewrite ME. assert (G : 0 < gs P Q (other rc)) by (destruct rc; assumption). rewrite (zrange_cons 0) by lia. cbn [map reduce all_reduce ca_in]. rewrite !fold_map. reflexivity.
Qed.
Lemma ph_other : forall l job st x, NoDup l -> (forall r y, In y (tj_in (job r)) \/ y = tj_out (job r) -> t_rank y = r) -> (forall r, tj_out (job r) <> x) -> erun mem (phase l job) st x = st x.
Proof using. intros l job st x ND RK N. rewrite phase_val by assumption. rewrite (teq_f x) by (intros E; apply (N (t_rank x)); symmetry; exact E). rewrite andb_false_r. reflexivity. Qed.
Lemma cph_other : forall rc part l st x, NoDup l -> In (t_rank x) rks -> (forall r t, ca_in (part r) = Some t -> t_rank t = r) -> (forall r q, In r rks -> In q (ca_needs (part r)) -> co Q rc q = co Q rc r) ->
  (forall r, ca_out (part r) <> Some x) -> erun mem (cphase rc l part) st x = st x.
Proof using HP HQ.
  intros rc part l st x ND RX H1 H2 N. rewrite (cphase_val rc part H1 H2 l ND st x RX). destruct (hasz _ l); [|reflexivity]. cbn [eexec]. destruct (member mem _ (t_rank x)); [|reflexivity]. cbn [andb].
  destruct (ca_out (part (t_rank x))) as [t|] eqn:E; [|reflexivity]. rewrite teq_f; [reflexivity|]. intros ->. apply (N (t_rank t)). exact E.
Qed.
Lemma b_in : forall i r t, ca_in (bpart i r) = Some t -> t_rank t = r.
Proof using. intros i r t. unfold bpart. destruct (_ =? _); cbn; intros E; try discriminate. injection E as <-. reflexivity. Qed.
Lemma b_needs : forall i r q, i_begin <= i < i_end -> In r rks -> In q (ca_needs (bpart i r)) -> co Q Row q = co Q Row r.
Proof using HP HQ HS LB.
  intros i r q Li R. unfold bpart. destruct (_ =? _); cbn [bsend brecv ca_needs In]; intros I; [destruct I|]. destruct I as [<-|[]].
  apply (co_rk P Q HP HQ); [apply (in_ranks P Q HP HQ) in R; lia|apply trkc; exact Li].
Qed.
Lemma red_in : forall rc op (t : Z -> tid), (forall q, t_rank (t q) = q) -> forall r x, ca_in (all_reduce P Q (cm rc (co Q rc r)) op (t r)) = Some x -> t_rank x = r.
Proof using. intros rc op t TR r x E. injection E as <-. apply TR. Qed.
Lemma red_needs : forall rc op (t : Z -> tid) r q, In r rks -> In q (ca_needs (all_reduce P Q (cm rc (co Q rc r)) op (t r))) -> co Q rc q = co Q rc r.
Proof using HP HQ. intros rc op t r q R I. cbn [all_reduce ca_needs] in I. apply (in_cm P Q HP HQ) in I. apply I. Qed.

Definition lam_at (i r : Z) : tile := lam (rk Q (co Q Row r) (trk Col i)) i.
Lemma g12_val : forall st r i, In r rks -> i_begin <= i < i_end -> erun mem g2 (erun mem g1 st) (tLam r i) = lam_at i r.
Proof using HP HQ HS LB.
  intros st r0 i0 R0 Li0.
  assert (JL : forall i r y, In y (tj_in (jLam i r)) \/ y = tj_out (jLam i r) -> t_rank y = r) by (intros i r y [[]| ->]; reflexivity).
  assert (A : forall r i, In r rks -> i_begin <= i < i_end -> co Q Col r = trk Col i -> erun mem g1 st (tLam r i) = lam_at i r).
  { set (Inv := fun (m : Z) (s : tstore tile) => forall r i, In r rks -> i_begin <= i < m -> co Q Col r = trk Col i -> s (tLam r i) = lam_at i r).
    assert (F : Inv i_end (erun mem g1 st)); [|exact F]. unfold g1. apply (erun_flat_inv P Q); [lia|intros r i; lia|]. intros m s Lm I1 r i R Li C.
    destruct (Z.eq_dec i m) as [->|N].
    - rewrite phase_val by (apply JL || apply colranks_nd, trkc; lia). cbn [t_rank tLam]. rewrite colranks_in by (exact R || apply trkc; lia). rewrite C, Z.eqb_refl. cbn [andb jLam tj_out]. rewrite teq_t. unfold tval. cbn [jLam tj_fun]. unfold lam_at. rewrite <- C, (rk_co P Q HP HQ). reflexivity.
    - rewrite ph_other; [apply I1; auto; lia|apply colranks_nd, trkc; lia|apply JL|]. intros q X. injection X as _ X. lia. }
  unfold g2. destruct (1 <? Q) eqn:EQ.
  - set (st1 := erun mem g1 st) in *.
    set (Inv := fun (m : Z) (s : tstore tile) => (forall r i, In r rks -> i_begin <= i < m -> s (tLam r i) = lam_at i r) /\ (forall r i, In r rks -> i_begin <= i < i_end -> co Q Col r = trk Col i -> s (tLam r i) = lam_at i r)).
    assert (F : Inv i_end (erun mem (flat_map (fun i => cphase Row (zrange 0 P) (bpart i)) (zrange i_begin i_end)) st1)); [|destruct F as [F _]; apply F; assumption].
    apply (erun_flat_inv P Q); [lia|split; [intros r i; lia|exact A]|]. intros m s Lm [I1 I2]. pose proof (trkc m Lm) as LC.
    assert (NW : forall r i, In r rks -> i <> m -> erun mem (cphase Row (zrange 0 P) (bpart m)) s (tLam r i) = s (tLam r i)).
    { intros r i R N. apply cph_other; [apply zrange_NoDup|exact R|apply b_in|intros; apply (b_needs m); assumption|]. intros q. unfold bpart. destruct (_ =? _); cbn; [discriminate|]. intros X. injection X as _ X. lia. }
    assert (V : forall r, In r rks -> erun mem (cphase Row (zrange 0 P) (bpart m)) s (tLam r m) = lam_at m r).
    { intros r R. assert (LR : 0 <= co Q Row r < P) by (apply (in_ranks P Q HP HQ) in R; lia).
      rewrite (cphase_val Row (bpart m) (b_in m) ltac:(intros; apply (b_needs m); assumption) _ (zrange_NoDup _ _)) by exact R. cbn [t_rank tLam].
      assert (H : hasz (co Q Row r) (zrange 0 P) = true) by (apply hasz_in, in_zrange; exact LR). rewrite H. cbn [eexec]. change (t_rank (tLam r m)) with r. destruct (member_spec mem (cm Row (co Q Row r)) r) as [_|N]; [|exfalso; apply N; apply (in_cm P Q HP HQ); auto]. cbn [andb].
      destruct (Z.eqb_spec (co Q Col r) (trk Col m)) as [E|E].
      { assert (BP : bpart m r = bsend (CRow (co Q Row r)) (rk Q (co Q Row r) (trk Col m)) (tLam r m)) by (unfold bpart; rewrite (proj2 (Z.eqb_eq _ _) E); reflexivity). rewrite BP. cbn [bsend ca_out]. apply (I2 r m R Lm E). }
      assert (BP : bpart m r = brecv (CRow (co Q Row r)) (rk Q (co Q Row r) (trk Col m)) (tLam r m)) by (unfold bpart; rewrite (proj2 (Z.eqb_neq _ _) E); reflexivity). rewrite BP. cbn [brecv ca_out ca_needs ca_fun map hd]. rewrite teq_t. unfold bpart.
      destruct (co_rk P Q HP HQ (co Q Row r) (trk Col m) LR LC) as [C1 C2]. rewrite C2, Z.eqb_refl. cbn [bsend ca_in]. rewrite I2; [|apply inr_rk; assumption|lia|exact C2]. unfold lam_at. rewrite C1. reflexivity. }
    split.
    + intros r i R Li. destruct (Z.eq_dec i m) as [->|N]; [apply V; exact R|]. rewrite NW by assumption. apply I1; [exact R|lia].
    + intros r i R Li C. destruct (Z.eq_dec i m) as [->|N]; [apply V; exact R|]. rewrite NW by assumption. apply I2; assumption.
  - apply A; try assumption. pose proof (trkc i0 Li0). apply (in_ranks P Q HP HQ) in R0. lia.
Qed.
Lemma g46_frame : forall st r i, In r rks -> erun mem (g3 ++ g4 ++ g5 ++ g6) st (tLam r i) = st (tLam r i).
Proof using HP HQ.
  intros st r i R. rewrite !DistGrid.erun_app.
  assert (X6 : forall s, erun mem g6 s (tLam r i) = s (tLam r i)).
  { intros s. unfold g6. destruct (1 <? P); [|reflexivity]. apply cph_other; [apply zrange_NoDup|exact R|apply (red_in Col Rplus tS); reflexivity|apply (red_needs Col Rplus tS)|discriminate]. }
  assert (X4 : forall s, erun mem g4 s (tLam r i) = s (tLam r i)).
  { intros s. unfold g4. destruct (1 <? Q); [|reflexivity]. apply cph_other; [apply zrange_NoDup|exact R|apply (red_in Row Rmult tW); reflexivity|apply (red_needs Row Rmult tW)|discriminate]. }
  rewrite X6. unfold g5. rewrite ph_other; [|apply rks_NoDup|intros q y [[<-|[]]| ->]; reflexivity|discriminate]. rewrite X4. unfold g3. apply ph_other; [apply rks_NoDup|intros q y [[]| ->]; reflexivity|discriminate].
Qed.
Lemma rk_zero : forall r, In r rks -> Q = 1 -> rk Q (co Q Row r) 0 = r.
Proof using HP HQ. intros r R E. rewrite <- (rk_co P Q HP HQ r) at 2. f_equal. apply (in_ranks P Q HP HQ) in R. lia. Qed.
Lemma w_val : forall st r, In r rks -> forall a b, erun mem g4 (erun mem g3 st) (tW r) a b = prow (co Q Row r) a b.
Proof using HP HQ.
  intros st r R a b.
  assert (A : forall q, In q rks -> erun mem g3 st (tW q) = w q).
  { intros q Rq. unfold g3. rewrite phase_val; [|intros p y [[]| ->]; reflexivity|apply rks_NoDup]. cbn [t_rank tW]. rewrite (proj2 (hasz_in q rks) Rq). cbn [andb jW tj_out]. rewrite teq_t. reflexivity. }
  assert (LR : 0 <= co Q Row r < P) by (apply (in_ranks P Q HP HQ) in R; lia).
  unfold g4, prow. destruct (1 <? Q) eqn:E.
  - rewrite (cphase_val Row wpart (red_in Row Rmult tW ltac:(reflexivity)) (red_needs Row Rmult tW) _ (zrange_NoDup _ _)) by exact R. cbn [t_rank tW].
    rewrite (proj2 (hasz_in _ _) (proj2 (in_zrange _ _ _) LR)). pose proof (red_val Row Rmult tW (erun mem g3 st) r R ltac:(reflexivity) a b) as RV. cbn [mk gs other] in RV. unfold wpart. etransitivity; [exact RV|].
    rewrite A by (apply inr_rk; lia). apply fold_ext. intros x c I. apply in_zrange in I. rewrite A by (apply inr_rk; lia). reflexivity.
  - assert (Q = 1) by lia. change (erun mem (@nil (event tile)) (erun mem g3 st)) with (erun mem g3 st). rewrite A by exact R. rewrite zrange_nil by lia. cbn [fold_left]. rewrite rk_zero by assumption. reflexivity.
Qed.
Lemma s_val : forall st r, In r rks -> forall a b, erun mem (g3 ++ g4 ++ g5 ++ g6) st (tS r) a b = scol (co Q Col r) a b.
Proof using HP HQ SQ.
  intros st r R a b. rewrite !DistGrid.erun_app. set (st4 := erun mem g4 (erun mem g3 st)).
  assert (A : forall q, In q rks -> forall a b, erun mem g5 st4 (tS q) a b = sq q (prow (co Q Row q)) a b).
  { intros q Rq a' b'. unfold g5. rewrite phase_val; [|intros p y [[<-|[]]| ->]; reflexivity|apply rks_NoDup]. cbn [t_rank tS]. rewrite (proj2 (hasz_in q rks) Rq). cbn [andb jS tj_out]. rewrite teq_t. unfold tval. cbn [jS tj_fun tj_in map]. unfold in1. cbn [hd].
    apply SQ. intros x y. apply w_val. exact Rq. }
  assert (LC : 0 <= co Q Col r < Q) by (apply (in_ranks P Q HP HQ) in R; lia).
  unfold g6, scol. destruct (1 <? P) eqn:E.
  - rewrite (cphase_val Col spart (red_in Col Rplus tS ltac:(reflexivity)) (red_needs Col Rplus tS) _ (zrange_NoDup _ _)) by exact R. cbn [t_rank tS].
    rewrite (proj2 (hasz_in _ _) (proj2 (in_zrange _ _ _) LC)). pose proof (red_val Col Rplus tS (erun mem g5 st4) r R ltac:(reflexivity) a b) as RV. cbn [mk gs other] in RV. unfold spart. etransitivity; [exact RV|].
    rewrite A by (apply inr_rk; lia). destruct (co_rk P Q HP HQ 0 (co Q Col r) ltac:(lia) LC) as [-> _]. apply fold_ext. intros x c I. apply in_zrange in I. rewrite A by (apply inr_rk; lia).
    destruct (co_rk P Q HP HQ c (co Q Col r) ltac:(lia) LC) as [-> _]. reflexivity.
  - assert (P1 : P = 1) by lia. change (erun mem (@nil (event tile)) (erun mem g5 st4)) with (erun mem g5 st4). rewrite A by exact R. rewrite zrange_nil by lia. cbn [fold_left]. assert (C0 : co Q Row r = 0) by (apply (in_ranks P Q HP HQ) in R; lia). assert (RR : rk Q 0 (co Q Col r) = r) by (rewrite <- C0; apply (rk_co P Q HP HQ)). rewrite C0, RR. reflexivity.
Qed.
Lemma w_end : forall st r, In r rks -> forall a b, erun mem (g3 ++ g4 ++ g5 ++ g6) st (tW r) a b = prow (co Q Row r) a b.
Proof using HP HQ.
  intros st r R a b. rewrite !DistGrid.erun_app. rewrite <- (w_val st r R). set (st4 := erun mem g4 (erun mem g3 st)).
  assert (X6 : forall s, erun mem g6 s (tW r) = s (tW r)).
  { intros s. unfold g6. destruct (1 <? P); [|reflexivity]. apply cph_other; [apply zrange_NoDup|exact R|apply (red_in Col Rplus tS); reflexivity|apply (red_needs Col Rplus tS)|discriminate]. }
  rewrite X6. unfold g5. rewrite ph_other; [reflexivity|apply rks_NoDup|intros q y [[<-|[]]| ->]; reflexivity|discriminate].
Qed.
Theorem rank1_run : forall st, every_run mem rks (rank1_prog P Q src k i_begin i_end lam w sq) st (fun st' => forall r, In r rks ->
    (forall i, i_begin <= i < i_end -> st' (tLam r i) = lam (rk Q (co Q Row r) (trk Col i)) i) /\
    (2 < k -> forall a b, st' (tW r) a b = prow (co Q Row r) a b /\ st' (tS r) a b = scol (co Q Col r) a b)).
Proof using HP HQ HS LB SQ.
  intros st. apply every_run_intro with gall; [apply gall_proj|apply gall_ok|].
  intros st' E r R. unfold gall in E. split.
  - intros i Li. rewrite E. rewrite !DistGrid.erun_app. destruct (k <=? 2); [cbn; apply g12_val; assumption|]. rewrite g46_frame by exact R. apply g12_val; assumption.
  - intros K a b. rewrite !E. rewrite !(DistGrid.erun_app P Q g1), !(DistGrid.erun_app P Q g2). destruct (Z.leb_spec k 2); [lia|]. split; [apply w_end; exact R|apply s_val; exact R].
Qed.
End rank1.
End proof.
