(** * Distributed band_to_tridiagonal: no deadlock. *)
From Coq Require Import ZArith Lia List Bool.
From Verif Require Import Loop HouseModel DistGrid DistMat B2TMsgModel B2TMsgSpec B2TMsgProofs B2TSched SemModel SemProofs B2TDistModel B2TDistStruct B2TDistOrder.
Import ListNotations.
Local Open Scope Z_scope.

Section progress.
Variable g : msg_cfg.
Hypothesis G : cfg_ok g.
Variable rdv : dthread -> bool.
Context {V : Type}.
Variable deff : dact -> (dloc -> V) -> dloc -> V.
Variable m0 : dloc -> V.
Notation size := (m_size g).
Notation nb := (m_nb g).
Notation b := (m_b g).
Notation nbb := (nb_band g).
Notation spb := (steps_per_block g).
Notation tpb := (tiles_per_block g).
Notation wpt := (workers_per_tile g).
Notation steps := (steps g).
Notation sweeps := (sweeps g).
Notation next_j := (next_j g).
Notation cv := (cv g).
Notation tok := (tok g).
Notation P := (b2td g rdv deff).
Notation reach := (sreach dthread_eq P m0).
Notation state := (sstate dthread dloc V).
Notation ths := (dthreads g).
Notation fin := (finished P).
Notation "st @ t" := (Z.of_nat (pc st t)) (at level 10, t at next level).
Notation facq := (facq g). Notation frel := (frel g). Notation sacq := (sacq g). Notation srel := (srel g).

Lemma facq_case : forall o t p, facq o t p <> 0 ->
  (exists s k, t = TAcq s k /\ o = sid g (Z.min s (last_sem g k)) k /\ 1 <= p) \/ (exists s, t = TInit s /\ o = sid g s 0 /\ 2 <= p) \/
  (exists s u, t = TStep s u /\ o = sid g s (u / spb) /\ 4 <= p) \/ (t = TFin /\ o = sid g (Z.max 0 sweeps) 0 /\ 1 <= p).
Proof using. clear G.
  intros o t p H. destruct t as [j|j|s k|s k|s k|s k|s|s k|s k|s u|s k| |i|]; cbn [B2TDistOrder.facq] in H; try congruence.
  - left. exists s, k. destruct (Z.leb_spec 1 p), (Z.eqb_spec (sid g (Z.min s (last_sem g k)) k) o); cbn in H; try congruence. auto.
  - right. left. exists s. destruct (Z.leb_spec 2 p), (Z.eqb_spec (sid g s 0) o); cbn in H; try congruence. auto.
  - right. right. left. exists s, u. destruct (Z.leb_spec 4 p), (Z.eqb_spec (sid g s (u / spb)) o); cbn in H; try congruence. auto.
  - right. right. right. destruct (Z.leb_spec 1 p), (Z.eqb_spec (sid g (Z.max 0 sweeps) 0) o); cbn in H; try congruence. auto.
Qed.
Lemma facq_le1 : forall o t p, facq o t p <= 1.
Proof using. clear G. intros o t p. destruct t; cbn [B2TDistOrder.facq]; try lia; destruct (_ && _); lia. Qed.
Lemma acq_upper : forall (st : state) o L, (forall x, In x ths -> facq o x (st @ x) <> 0 -> In x L) -> sacq st o <= Z.of_nat (length L).
Proof using G.
  intros st o L H. rewrite <- (zsum1 L). unfold B2TDistOrder.sacq. apply zsum_upper; [apply (threads_nodup g G)|exact H|intros; apply facq_le1|intros; lia].
Qed.
Lemma rel_lower : forall (st : state) o L, NoDup L -> incl L ths -> zsum (fun t => frel o t (st @ t)) L <= srel st o.
Proof using G.
  intros st o L ND IN. unfold B2TDistOrder.srel. apply zsum_lower; [exact ND|exact IN| |intros; lia]. intros x Ix. apply (in_threads g G) in Ix as [_ OK]. apply (frel_nonneg g G). exact OK.
Qed.
Lemma rel_one : forall (st : state) o t, In t ths -> frel o t (st @ t) <= srel st o.
Proof using G. intros st o t It. pose proof (rel_lower st o [t] ltac:(repeat constructor; intros []) ltac:(intros x [<-|[]]; exact It)) as H. rewrite zsum_cons in H. cbn in H. lia. Qed.

Section stuck.
Variable st : state.
Hypothesis R : reach st.
Hypothesis B : forall t, In t ths -> blocked P st t.
Hypothesis SZ : 0 < size.
Lemma go : forall t, tok t -> (forall u, In (IJoin u) (dprog g rdv t) -> fin st u) -> (forall o, cur P st t = Some (IAcq o) -> sacq st o < srel st o) -> fin st t.
Proof using G R B SZ.
  intros t OK J A. destruct (blocked_cases dthread_eq P m0 st t R (B t (proj2 (in_threads g G t) (conj SZ OK)))) as [F|[(o & E & L)|(u & E & NF)]]; [exact F| |].
  - exfalso. specialize (A o E). pose proof (sem_eq g G rdv deff m0 st o R). lia.
  - exfalso. apply NF, J. unfold cur in E. apply nth_error_In in E. exact E.
Qed.
Lemma nil_fin : fin st TNil. Proof using G R. apply (fin_nil g G rdv deff m0 st R). Qed.
Lemma copy_fin : forall j, 0 <= j < ntl g -> fin st (TCopy j).
Proof using G R B SZ. intros j Lj. apply go; [exact Lj| |]; [intros u [E|[]]; discriminate|]. intros o E. unfold cur in E. apply nth_error_In in E. destruct E as [E|[]]. discriminate. Qed.
Lemma noacq : forall t, (forall o, ~ In (IAcq o) (dprog g rdv t)) -> forall o, cur P st t = Some (IAcq o) -> sacq st o < srel st o.
Proof using. clear. intros t N o E. exfalso. unfold cur in E. apply nth_error_In in E. apply (N o E). Qed.
Lemma rel_fin : forall j, 0 <= j < ntl g -> fin st (TRel j).
Proof using G R B SZ.
  intros j Lj. destruct Lj as [L0 L1]. revert L1. pattern j. apply Zlt_0_ind; [|exact L0]. clear j L0. intros j IH L0 L1. apply go; [cbn; lia| |apply noacq; intros o [E|[E|[E|[]]]]; discriminate].
  intros u [E|[E|[E|[]]]]; inversion E; subst.
  - apply copy_fin. lia.
  - pose proof (tpb1 g G). destruct (Z.eqb_spec (j mod tpb) 0) as [M|M]; [apply nil_fin|]. destruct (Z.eq_dec j 0) as [->|N]; [rewrite Z.mod_0_l in M; lia|]. apply IH; lia.
Qed.
(** the sweep of a task *)
Definition sw (t : dthread) : Z :=
  match t with
  | TAcq s _ | TSendC s _ | TPostC s _ | TRecvC s _ | TInit s | TPostW s _ | TRecvW s _ | TStep s _ | TSendW s _ => s
  | _ => -1
  end.
Lemma frel_step : forall s u, 0 <= s < sweeps -> 0 <= u < steps s -> fin st (TStep s u) -> frel (sid g (s + 1) (u / spb)) (TStep s u) (st @ (TStep s u)) = 1 + (if extra g s u then 1 else 0).
Proof using.
  clear. intros s u Ls Lu F. pose proof (fin_pc g rdv deff st _ F) as FP. cbn [B2TDistOrder.frel]. rewrite Z.eqb_refl. rewrite FP. cbn [dprog app length]. destruct (extra g s u); reflexivity.
Qed.
Section sweep.
Variable s : Z.
Hypothesis Ls : 0 <= s < sweeps.
Hypothesis PREV : forall t, tok t -> 0 <= sw t < s -> fin st t.
Lemma coldep_fin : forall k, cv s k -> fin st (col_dep g s k).
Proof using G R B SZ Ls PREV.
  intros k C. unfold col_dep. destruct (Z.eqb_spec s 0) as [E|N].
  - pose proof (cv0_full g G s k C). pose proof (tpb1 g G). assert (0 <= k) by apply C. apply rel_fin. nia.
  - assert (C' : cv (s - 1) k) by (destruct C as (C1 & C2 & C3); unfold B2TDistStruct.cv, B2TDistModel.next_j in *; lia).
    pose proof (last_range g G (s - 1) k ltac:(apply C) (cv_active g G _ _ C')). apply PREV; cbn; lia.
Qed.
Lemma postc_fin : forall k, cv s k -> fin st (TPostC s k).
Proof using G R B SZ Ls PREV. intros k C. apply go; [exact C| |apply noacq; intros o [E|[]]; discriminate]. intros u [E|[]]. inversion E. apply coldep_fin. exact C. Qed.
Lemma wpred_fin : forall k, 0 <= k -> k * spb < steps s -> fin st (wpred g s k).
Proof using G R B SZ Ls PREV.
  intros k Lk A. unfold wpred. pose proof (g_wpt g G). destruct (Z.ltb_spec s wpt) as [C|C]; [apply nil_fin|]. pose proof (steps_anti g G s (s - wpt) ltac:(lia) ltac:(lia)).
  unfold wlast. destruct (Z.ltb_spec ((k + 1) * spb) (steps (s - wpt))); [apply PREV; [cbn [B2TDistStruct.tok]; repeat split; lia|cbn [sw]; lia]|]. pose proof (last_range g G (s - wpt) k Lk ltac:(lia)). apply PREV; [cbn [B2TDistStruct.tok]; repeat split; nia|cbn [sw]; lia].
Qed.
Lemma postw_fin : forall k, 1 <= k -> k * spb < steps s -> fin st (TPostW s k).
Proof using G R B SZ Ls PREV. intros k Lk A. apply go; [cbn; auto| |apply noacq; intros o [E|[]]; discriminate]. intros u [E|[]]. inversion E. apply wpred_fin; [lia|exact A]. Qed.
Lemma acq_unfin_pc : forall s' k o, cur P st (TAcq s' k) = Some (IAcq o) -> pc st (TAcq s' k) = O /\ o = sid g (Z.min s' (last_sem g k)) k.
Proof using. clear. intros s' k o E. unfold cur in E. cbn [prog b2td dprog] in E. destruct (pc st (TAcq s' k)) as [|[|n]]; cbn in E; inversion E; auto. Qed.
Lemma acq_fin : forall k, cv s (k - 1) -> fin st (TAcq s k).
Proof using G R B SZ Ls PREV.
  intros k C. apply go; [exact C|intros u [E|[]]; discriminate|]. intros o E. apply acq_unfin_pc in E as [PC ->].
  pose proof (cv_block g G _ _ C) as KB. replace (k - 1 + 1) with k in KB by lia. assert (K1 : 1 <= k) by (assert (0 <= k - 1) by apply C; lia).
  pose proof (spb1 g G). pose proof (nbb2 g G) as N2. pose proof (sweeps_le g) as SL. pose proof (tpb1 g G). assert (CC : s + k * nbb < size) by (destruct C as (_ & _ & C3); unfold B2TDistModel.next_j in C3; replace (k - 1 + 1) with k in C3 by lia; lia).
  (* the other acquisitions *)
  assert (OTH : forall o', o' = Z.min s (last_sem g k) -> forall x, In x ths -> facq (sid g o' k) x (st @ x) <> 0 -> (exists s', x = TAcq s' k /\ s' <> s /\ Z.min s' (last_sem g k) = o' /\ cv s' (k - 1))).
  { intros o' EO x Ix NZ. apply (in_threads g G) in Ix as [_ OK]. assert (KL : 0 <= o') by (rewrite EO; unfold last_sem; lia). apply facq_case in NZ as [(s1 & k1 & -> & ES & L)|[(s1 & -> & ES & L)|[(s1 & u & -> & ES & L)|(-> & ES & L)]]].
    - cbn in OK. pose proof (cv_block g G _ _ OK) as KB1. replace (k1 - 1 + 1) with k1 in KB1 by lia. apply sid_inj in ES; [|lia|lia]. destruct ES as [ES <-]. exists s1. split; [reflexivity|]. split; [|auto]. intros ->. rewrite PC in L. cbn in L. lia.
    - exfalso. apply sid_inj in ES; lia.
    - exfalso. destruct OK as [Ls1 Lu]. pose proof (kb g G u ltac:(lia)) as (U0 & U1). pose proof (act_block g G s1 (u / spb) Ls1 U0 ltac:(lia)). apply sid_inj in ES; [|lia|lia]. destruct ES as [ES EU].
      assert (A : s1 + k * nbb < size - 2) by (apply (act_iff g G); [exact Ls1|lia|rewrite EU; lia]). assert (ESS : s1 = s) by (unfold last_sem in *; lia). clear ES. subst s1.
      destruct (first_done g G rdv deff m0 st s u R Ls Lu ltac:(lia)) as [F _]. rewrite <- EU in F. unfold first_acq in F. destruct (Z.eqb_spec k 0); [lia|]. pose proof (fin_pc g rdv deff st _ F) as FP. rewrite PC in FP. cbn in FP. lia.
    - exfalso. apply sid_inj in ES; lia. }
  set (e := last_sem g k) in *. specialize (OTH _ eq_refl).
  destruct (Z_lt_le_dec s e) as [A|A].
  - assert (U : sacq st (sid g (Z.min s e) k) <= Z.of_nat (length (@nil dthread))).
    { apply acq_upper. intros x Ix NZ. destruct (OTH x Ix NZ) as (s' & _ & N & M & _). exfalso. lia. }
    cbn [length] in U. assert (L1 : 1 <= srel st (sid g (Z.min s e) k)); [|lia]. rewrite Z.min_l by lia. destruct (Z.eq_dec s 0) as [E0|NZ].
    + rewrite E0. assert (T : 0 <= k * tpb < ntl g). { split; [nia|]. apply (ntl_lt g G). rewrite <- (nbb_t g G). lia. }
      etransitivity; [|apply (rel_one st _ (TRel (k * tpb))); apply (in_threads g G); split; [exact SZ|exact T]]. cbn [B2TDistOrder.frel]. rewrite (fin_pc g rdv deff st _ (rel_fin _ T)). rewrite Z.div_mul by lia. rewrite Z.eqb_refl. cbn [dprog length andb]. change (3 <=? Z.of_nat 3) with true. cbn [andb]. apply (nr_pos g G). exact T.
    + assert (T : k * spb < steps (s - 1)) by (apply (act_iff g G); unfold e, last_sem in A; lia).
      assert (F : fin st (TStep (s - 1) (k * spb))) by (apply PREV; cbn; [split; [lia|nia]|lia]).
      etransitivity; [|apply (rel_one st _ (TStep (s - 1) (k * spb))); apply (in_threads g G); split; [exact SZ|cbn; split; [lia|nia]]].
      pose proof (frel_step (s - 1) (k * spb) ltac:(lia) ltac:(nia) F) as FS. rewrite Z.div_mul in FS by lia. replace (s - 1 + 1) with s in FS by lia. rewrite FS. destruct (extra _ _ _); lia.
  - rewrite Z.min_r in * by lia.
    assert (U : sacq st (sid g e k) <= Z.of_nat (length [TAcq (if s =? e then e + 1 else e) k])).
    { apply acq_upper. intros x Ix NZ. destruct (OTH x Ix NZ) as (s' & -> & N & M & C'). left. f_equal. destruct C' as (C1 & C2 & C3). unfold B2TDistModel.next_j in C3. replace (k - 1 + 1) with k in C3 by lia. unfold e, last_sem in *. destruct (Z.eqb_spec s (Z.max 0 (size - 2 - k * nbb))); lia. }
    cbn [length] in U. assert (L1 : 2 <= srel st (sid g e k)); [|lia]. destruct (Z.eq_dec e 0) as [E0|NZ].
    + assert (T : 0 <= k * tpb < ntl g). { split; [nia|]. apply (ntl_lt g G). rewrite <- (nbb_t g G). lia. }
      etransitivity; [|apply (rel_one st _ (TRel (k * tpb))); apply (in_threads g G); split; [exact SZ|exact T]]. cbn [B2TDistOrder.frel]. rewrite (fin_pc g rdv deff st _ (rel_fin _ T)). rewrite Z.div_mul by lia. rewrite E0, Z.eqb_refl. cbn [dprog length andb]. change (3 <=? Z.of_nat 3) with true. cbn [andb].
      unfold nr_release. assert (NL : ~ (k * tpb + 1 < ntl g)). { intros NL. apply (ntl_lt g G) in NL. replace ((k * tpb + 1) * nb) with (k * nbb + nb) in NL by (rewrite (nbb_t g G); ring). pose proof (g_b g G). pose proof (g_c g G). pose proof (g_c1 g G). unfold e, last_sem in E0. nia. }
      destruct (Z.ltb_spec (k * tpb) (ntl g - 1)); [lia|]. assert (0 < ceil_div (size - k * tpb * nb) b). { pose proof (g_b g G). apply (ceil_div_lt (size - k * tpb * nb) b 0); [lia|]. rewrite <- (nbb_t g G). lia. } lia.
    + assert (T : k * spb < steps (e - 1)) by (apply (act_iff g G); unfold e, last_sem in *; lia).
      assert (F : fin st (TStep (e - 1) (k * spb))) by (apply PREV; cbn; [split; [unfold e, last_sem in *; lia|nia]|unfold e, last_sem in *; lia]).
      etransitivity; [|apply (rel_one st _ (TStep (e - 1) (k * spb))); apply (in_threads g G); split; [exact SZ|cbn; split; [unfold e, last_sem in *; lia|nia]]].
      pose proof (frel_step (e - 1) (k * spb) ltac:(unfold e, last_sem in *; lia) ltac:(nia) F) as FS. rewrite Z.div_mul in FS by lia. replace (e - 1 + 1) with e in FS by lia. rewrite FS.
      assert (EX : extra g (e - 1) (k * spb) = true).
      { unfold extra. rewrite Z.div_mul by lia. assert (~ (k * spb + 1 < steps (e - 1))). { intros X. apply (steps_lt g G) in X. pose proof (g_b g G). unfold e, last_sem in *. destruct (Z.eqb_spec (Z.max 0 (size - 2 - k * nbb) - 1) (size - 2)); [nia|]. replace ((k * spb + 1) * b) with (k * nbb + b) in X by (rewrite (nbb_e g G); ring). lia. }
        apply andb_true_intro. split; [apply Z.eqb_eq; lia|]. apply negb_true_iff, Z.eqb_neq. unfold B2TDistModel.next_j, e, last_sem in *. lia. }
      rewrite EX. lia.
Qed.
Lemma sendc_fin : forall k, cv s (k - 1) -> fin st (TSendC s k).
Proof using G R B SZ Ls PREV.
  intros k C. apply go; [exact C| |apply noacq; intros o [E|[E|[E|[]]]]; discriminate]. intros u [E|[E|[E|[]]]]; inversion E; subst; [apply acq_fin; exact C|]. destruct (rdv (TSendC s k)); [apply postc_fin; exact C|apply nil_fin].
Qed.
Lemma recvc_fin : forall k, cv s k -> fin st (TRecvC s k).
Proof using G R B SZ Ls PREV.
  intros k C. apply go; [exact C| |apply noacq; intros o [E|[E|[E|[E|[]]]]]; discriminate]. intros u [E|[E|[E|[E|[]]]]]; inversion E; subst; [apply postc_fin; exact C|]. apply sendc_fin. replace (k + 1 - 1) with k by lia. exact C.
Qed.
Lemma init_fin : fin st (TInit s).
Proof using G R B SZ Ls PREV.
  pose proof (steps_pos g G s Ls). pose proof (spb1 g G). pose proof (tpb1 g G).
  assert (KB : 0 < nblocks g) by (apply (nblocks_lt g G); lia).
  apply go; [exact Ls| |].
  - intros u I. cbn [dprog app In] in I. destruct I as [E|[E|[E|I]]]; try discriminate; [|destruct (_ =? _); [destruct I as [I|[]]; discriminate|destruct I]]. inversion E. apply wpred_fin; lia.
  - intros o E. assert (PE : pc st (TInit s) = 1%nat /\ o = sid g s 0).
    { unfold cur in E. cbn [prog b2td dprog] in E. destruct (pc st (TInit s)) as [|[|[|n]]]; cbn [app nth_error] in E; try discriminate; [inversion E; auto|]. destruct (_ =? _); [|destruct n; discriminate]. destruct n as [|[|n]]; discriminate. }
    destruct PE as [PC ->].
    assert (U : sacq st (sid g s 0) <= Z.of_nat (length (@nil dthread))).
    { apply acq_upper. intros x Ix NZ. exfalso. apply (in_threads g G) in Ix as [_ OK]. apply facq_case in NZ as [(s1 & k1 & -> & ES & L)|[(s1 & -> & ES & L)|[(s1 & u & -> & ES & L)|(-> & ES & L)]]].
      - cbn in OK. pose proof (cv_block g G _ _ OK) as KB1. assert (0 <= k1 - 1) by apply OK. apply sid_inj in ES; lia.
      - apply sid_inj in ES; [|lia|lia]. destruct ES as [<- _]. rewrite PC in L. lia.
      - destruct OK as [Ls1 Lu]. pose proof (kb g G u ltac:(lia)) as (U0 & U1). pose proof (act_block g G s1 (u / spb) Ls1 U0 ltac:(lia)). apply sid_inj in ES; [|lia|lia]. destruct ES as [<- EU].
        pose proof (step_init g G rdv deff m0 st s u R Ls Lu ltac:(lia)) as F. pose proof (fin_pc g rdv deff st _ F) as FP. rewrite PC in FP. cbn [dprog app length] in FP. lia.
      - apply sid_inj in ES; lia. }
    cbn [length] in U. assert (L1 : 1 <= srel st (sid g s 0)); [|lia]. destruct (Z.eq_dec s 0) as [E0|NZ].
    + rewrite E0. assert (T : 0 <= 0 < ntl g). { split; [lia|]. apply (ntl_lt g G). lia. }
      etransitivity; [|apply (rel_one st _ (TRel 0)); apply (in_threads g G); split; [exact SZ|exact T]]. cbn [B2TDistOrder.frel]. rewrite (fin_pc g rdv deff st _ (rel_fin _ T)). rewrite Z.div_0_l by lia. rewrite Z.eqb_refl. cbn [dprog length]. change (3 <=? Z.of_nat 3) with true. cbn [andb]. apply (nr_pos g G). exact T.
    + pose proof (steps_pos g G (s - 1) ltac:(lia)). assert (F : fin st (TStep (s - 1) 0)) by (apply PREV; cbn; lia).
      etransitivity; [|apply (rel_one st _ (TStep (s - 1) 0)); apply (in_threads g G); split; [exact SZ|cbn; lia]].
      pose proof (frel_step (s - 1) 0 ltac:(lia) ltac:(lia) F) as FS. rewrite Z.div_0_l in FS by lia. replace (s - 1 + 1) with s in FS by lia. rewrite FS. destruct (extra _ _ _); lia.
Qed.
(** the releases that a step of the sweep can count on *)
Lemma map_rel_nodup : forall lo hi, NoDup (map TRel (zrange lo hi)).
Proof using. clear. intros. apply FinFun.Injective_map_NoDup; [intros x y E; congruence|apply zrange_NoDup]. Qed.
Lemma rel_enough : forall t, 0 <= t < steps s -> t - t / spb * spb + 2 <= srel st (sid g s (t / spb)).
Proof using G R B SZ Ls PREV.
  intros t Lt. pose proof (kb g G t ltac:(lia)) as (K0 & K1). pose proof (spb1 g G). pose proof (tpb1 g G) as T1. set (k := t / spb) in *. pose proof (sweeps_le g) as SL.
  assert (COL : cv s k -> frel (sid g s k) (TRecvC s k) (st @ (TRecvC s k)) = 1).
  { intros C. cbn [B2TDistOrder.frel]. rewrite (fin_pc g rdv deff st _ (recvc_fin k C)). rewrite Z.eqb_refl. reflexivity. }
  assert (CVD : cv s k \/ size <= next_j s k) by (unfold B2TDistStruct.cv; lia).
  destruct (Z.eq_dec s 0) as [E0|NS].
  - pose proof (tpb_spb g G) as TS. pose proof (g_c g G) as EC. pose proof (g_c1 g G) as C1. pose proof (g_b g G) as HB. set (c := nb / b) in *.
    assert (RF : forall j, k * tpb <= j < (k + 1) * tpb -> 0 <= j < ntl g -> frel (sid g s k) (TRel j) (st @ (TRel j)) = nr_release g j).
    { intros j Lj Ln. cbn [B2TDistOrder.frel]. rewrite (fin_pc g rdv deff st _ (rel_fin j Ln)). rewrite (tb_eq g G j k Lj), E0, Z.eqb_refl. reflexivity. }
    destruct CVD as [C|C].
    + pose proof (cv0_full g G s k C) as CF. assert (LL := rel_lower st (sid g s k) (TRecvC s k :: map TRel (zrange (k * tpb) ((k + 1) * tpb)))).
      rewrite zsum_cons, (COL C) in LL. rewrite zsum_map in LL. rewrite (zsum_ext _ (fun _ => c) (zrange (k * tpb) ((k + 1) * tpb))) in LL.
      * rewrite zsumc, range_len in LL by lia. assert (H1 : 1 + ((k + 1) * tpb - k * tpb) * c <= srel st (sid g s k)).
        { apply LL; [constructor; [intros I; apply in_map_iff in I as (? & ? & _); discriminate|apply map_rel_nodup]|]. intros x [<-|I]; [apply (in_threads g G); auto|]. apply in_map_iff in I as (j & <- & I). apply in_zrange in I. apply (in_threads g G). split; [exact SZ|cbn; nia]. }
        replace (((k + 1) * tpb - k * tpb) * c) with (tpb * c) in H1 by ring. lia.
      * intros j I. apply in_zrange in I. rewrite RF by (try lia; nia). unfold nr_release. destruct (Z.ltb_spec j (ntl g - 1)); [reflexivity|lia].
    + assert (KT : 0 <= k * tpb < ntl g). { split; [nia|]. apply (ntl_lt g G). rewrite <- (nbb_t g G). apply (nblocks_lt g G). apply (act_block g G s k Ls K0). lia. }
      assert (NT : ntl g <= (k + 1) * tpb). { destruct (Z_lt_le_dec ((k + 1) * tpb) (ntl g)) as [X|X]; [|exact X]. apply (ntl_lt g G) in X. rewrite <- (nbb_t g G) in X. unfold B2TDistModel.next_j in C. lia. }
      assert (LL := rel_lower st (sid g s k) (TRel (ntl g - 1) :: map TRel (zrange (k * tpb) (ntl g - 1)))).
      rewrite zsum_cons, (RF (ntl g - 1)) in LL by lia. rewrite zsum_map in LL. rewrite (zsum_ext _ (fun _ => c) (zrange (k * tpb) (ntl g - 1))) in LL.
      * rewrite zsumc, range_len in LL by lia. assert (H1 : nr_release g (ntl g - 1) + (ntl g - 1 - k * tpb) * c <= srel st (sid g s k)).
        { apply LL; [constructor; [intros I; apply in_map_iff in I as (j & E & I); apply in_zrange in I; inversion E; lia|apply map_rel_nodup]|]. intros x [<-|I]; [apply (in_threads g G); split; [exact SZ|cbn; lia]|]. apply in_map_iff in I as (j & <- & I). apply in_zrange in I. apply (in_threads g G). split; [exact SZ|cbn; lia]. }
        unfold nr_release in H1. destruct (Z.ltb_spec (ntl g - 1) (ntl g - 1)); [lia|]. replace ((ntl g - 1 - k * tpb) * c) with ((ntl g - 1) * c - k * spb) in H1 by (rewrite <- TS; ring).
        assert (X : t - (ntl g - 1) * c < ceil_div (size - (ntl g - 1) * nb) b); [|lia]. apply (ceil_div_lt (size - (ntl g - 1) * nb) b (t - (ntl g - 1) * c)); [lia|].
        assert (Lt2 : t * b < size). { destruct Lt as [Lt0 Lt]. apply (steps_lt g G) in Lt. destruct (Z.eqb_spec s (size - 2)); [assert (t = 0) by lia; subst t; lia|lia]. }
        assert (ntl g * nb >= 0) by (pose proof (g_nb g G); nia). rewrite EC at 1. nia.
      * intros j I. apply in_zrange in I. rewrite RF by lia. unfold nr_release. destruct (Z.ltb_spec j (ntl g - 1)); [reflexivity|lia].
  - pose proof (steps_anti g G s (s - 1) ltac:(lia) ltac:(lia)) as SA. pose proof (last_range g G (s - 1) k K0 ltac:(lia)) as LR.
    assert (SF : forall u, k * spb <= u < (k + 1) * spb -> u < steps (s - 1) -> frel (sid g s k) (TStep (s - 1) u) (st @ (TStep (s - 1) u)) = 1 + (if extra g (s - 1) u then 1 else 0)).
    { intros u Lu Lu2. assert (0 <= u) by nia. assert (F : fin st (TStep (s - 1) u)) by (apply PREV; cbn; lia). pose proof (frel_step (s - 1) u ltac:(lia) ltac:(lia) F) as FS. rewrite (kb_eq g G u k Lu) in FS. replace (s - 1 + 1) with s in FS by lia. exact FS. }
    destruct CVD as [C|C].
    + assert (C' : cv (s - 1) k) by (destruct C as (X1 & X2 & X3); unfold B2TDistStruct.cv, B2TDistModel.next_j in *; lia). pose proof (cv_full g G _ _ C') as CF.
      assert (LL := rel_lower st (sid g s k) (TRecvC s k :: map (TStep (s - 1)) (zrange (k * spb) ((k + 1) * spb)))).
      rewrite zsum_cons, (COL C), zsum_map in LL. assert (LE : zsum (fun _ : Z => 1) (zrange (k * spb) ((k + 1) * spb)) <= zsum (fun x => frel (sid g s k) (TStep (s - 1) x) (st @ (TStep (s - 1) x))) (zrange (k * spb) ((k + 1) * spb))).
      { apply zsum_le. intros u I. apply in_zrange in I. rewrite SF by lia. destruct (extra g (s - 1) u); lia. }
      rewrite zsum1, range_len in LE by lia. assert (H1 : 1 + zsum (fun x => frel (sid g s k) (TStep (s - 1) x) (st @ (TStep (s - 1) x))) (zrange (k * spb) ((k + 1) * spb)) <= srel st (sid g s k)); [|lia].
      apply LL; [constructor; [intros I; apply in_map_iff in I as (? & ? & _); discriminate|apply map_step_nodup]|]. intros x [<-|I]; [apply (in_threads g G); auto|]. apply in_map_iff in I as (u & <- & I). apply in_zrange in I. apply (in_threads g G). split; [exact SZ|cbn; nia].
    + assert (EX : extra g (s - 1) (last_step g (s - 1) k) = true).
      { unfold extra. rewrite (kb_eq g G _ k) by lia. unfold B2TDistModel.next_j in *.
        assert (NA : ~ (k + 1) * spb < steps (s - 1)) by (intros A; apply (act_iff g G) in A; lia). apply andb_true_intro. split; [apply Z.eqb_eq; unfold last_step; lia|]. apply negb_true_iff, Z.eqb_neq. lia. }
      assert (LL := rel_lower st (sid g s k) (TStep (s - 1) (last_step g (s - 1) k) :: map (TStep (s - 1)) (zrange (k * spb) (last_step g (s - 1) k)))).
      rewrite zsum_cons, (SF (last_step g (s - 1) k)), EX, zsum_map in LL by lia. assert (LE : zsum (fun _ : Z => 1) (zrange (k * spb) (last_step g (s - 1) k)) <= zsum (fun x => frel (sid g s k) (TStep (s - 1) x) (st @ (TStep (s - 1) x))) (zrange (k * spb) (last_step g (s - 1) k))).
      { apply zsum_le. intros u I. apply in_zrange in I. rewrite SF by lia. destruct (extra g (s - 1) u); lia. }
      rewrite zsum1, range_len in LE by lia. assert (H1 : 1 + 1 + zsum (fun x => frel (sid g s k) (TStep (s - 1) x) (st @ (TStep (s - 1) x))) (zrange (k * spb) (last_step g (s - 1) k)) <= srel st (sid g s k)).
      { apply LL; [constructor; [intros I; apply in_map_iff in I as (u & E & I); apply in_zrange in I; inversion E; lia|apply map_step_nodup]|]. intros x [<-|I]; [apply (in_threads g G); split; [exact SZ|cbn; lia]|]. apply in_map_iff in I as (u & <- & I). apply in_zrange in I. apply (in_threads g G). split; [exact SZ|cbn; nia]. }
      assert (t <= last_step g (s - 1) k) by (unfold last_step; lia). lia.
Qed.
Lemma step_fin : forall t, 0 <= t < steps s -> fin st (TStep s t).
Proof using G R B SZ Ls PREV.
  intros t [L0 L1]. revert L1. pattern t. apply Zlt_0_ind; [|exact L0]. clear t L0. intros t IH L0 L1.
  pose proof (kb g G t ltac:(lia)) as (K0 & K1). pose proof (spb1 g G). set (k := t / spb) in *. assert (KB := act_block g G s k Ls K0 ltac:(lia)).
  assert (SW1 : 1 <= k -> fin st (TRecvW s k) \/ t <> k * spb).
  { intros K. destruct (Z.eq_dec t (k * spb)) as [ET|]; [left|right; assumption].
    apply go; [cbn; lia| |apply noacq; intros o [E|[E|[E|[]]]]; discriminate]. intros u [E|[E|[E|[]]]]; inversion E; subst u; [apply postw_fin; lia|].
    apply go; [cbn; replace (k - 1 + 1) with k by lia; lia| |apply noacq; intros o [E2|[E2|[E2|[]]]]; discriminate]. intros u [E2|[E2|[E2|[]]]]; inversion E2; subst u.
    - unfold last_step. replace (k - 1 + 1) with k by lia. apply IH; nia.
    - destruct (rdv (TSendW s (k - 1))); [|apply nil_fin]. replace (k - 1 + 1) with k by lia. apply postw_fin; lia. }
  apply go; [cbn; lia| |].
  - intros u I. cbn [dprog app In] in I. destruct I as [E|[E|[E|[E|[E|[E|I]]]]]]; try discriminate; [| |destruct (extra g s t); [destruct I as [I|[]]; discriminate|destruct I]]; inversion E; subst u; clear E.
    + unfold step_prev. fold k. destruct (Z.eqb_spec t 0) as [|N0]; [apply init_fin|]. destruct (Z.eqb_spec (t mod spb) 0) as [M|M]; [|apply IH; lia].
      pose proof (kb0 g G t L0 M) as ET. fold k in ET. destruct (SW1 ltac:(nia)) as [F|F]; [exact F|contradiction].
    + fold k. destruct ((0 <? t) && (t mod spb =? 0)) eqn:C; [|apply nil_fin]. apply acq_fin. apply (act_cv g G); [exact Ls| |lia]. apply andb_prop in C as [C1 C2]. apply Z.eqb_eq in C2. pose proof (kb0 g G t L0 C2) as ET. fold k in ET. nia.
  - intros o E. assert (PE : pc st (TStep s t) = 3%nat /\ o = sid g s k).
    { unfold cur in E. cbn [prog b2td dprog] in E. destruct (pc st (TStep s t)) as [|[|[|[|[|[|n]]]]]]; cbn [app nth_error] in E; try discriminate; [inversion E; auto|]. destruct (extra g s t); [|destruct n; discriminate]. destruct n as [|[|n]]; discriminate. }
    destruct PE as [PC ->]. pose proof (rel_enough t ltac:(lia)) as RE. fold k in RE.
    assert (U : sacq st (sid g s k) <= Z.of_nat (length (first_acq s k :: map (TStep s) (zrange (k * spb) t)))).
    { apply acq_upper. intros x Ix NZ. apply (in_threads g G) in Ix as [_ OK]. apply facq_case in NZ as [(s1 & k1 & -> & ES & L)|[(s1 & -> & ES & L)|[(s1 & u & -> & ES & L)|(-> & ES & L)]]].
      - left. cbn in OK. pose proof (cv_block g G _ _ OK) as KB1. replace (k1 - 1 + 1) with k1 in KB1 by lia. assert (0 <= k1 - 1) by apply OK. apply sid_inj in ES; [|lia|lia]. destruct ES as [ES EK]. subst k1.
        unfold first_acq. destruct (Z.eqb_spec k 0); [lia|]. f_equal. assert (A : s + k * nbb < size - 2) by (apply (act_iff g G); lia). unfold last_sem in ES. lia.
      - left. apply sid_inj in ES; [|lia|lia]. destruct ES as [<- ->]. reflexivity.
      - destruct OK as [Ls1 Lu]. pose proof (kb g G u ltac:(lia)) as (U0 & U1). pose proof (act_block g G s1 (u / spb) Ls1 U0 ltac:(lia)). apply sid_inj in ES; [|lia|lia]. destruct ES as [<- EU]. rewrite <- EU in U1.
        right. apply in_map. apply in_zrange. split; [lia|]. destruct (Z_lt_le_dec u t) as [|X]; [assumption|]. exfalso. destruct (Z.eq_dec u t) as [->|N]; [rewrite PC in L; cbn in L; lia|].
        pose proof (step_chain g G rdv deff m0 st s u t R Ls ltac:(lia) ltac:(lia) ltac:(lia)) as F. pose proof (fin_pc g rdv deff st _ F) as FP. pose proof (step_len g rdv s t). rewrite PC in FP. lia.
      - exfalso. apply sid_inj in ES; lia. }
    cbn [length] in U. rewrite map_length in U. pose proof (range_len (k * spb) t ltac:(lia)). lia.
Qed.
Lemma sweep_fin : forall t, tok t -> sw t = s -> fin st t.
Proof using G R B SZ Ls PREV.
  assert (WS : forall k, 0 <= k -> (k + 1) * spb < steps s -> fin st (TSendW s k)).
  { intros k Lk A. pose proof (spb1 g G). apply go; [cbn; auto| |apply noacq; intros o [E2|[E2|[E2|[]]]]; discriminate]. intros u [E2|[E2|[E2|[]]]]; inversion E2; subst u; [apply step_fin; unfold last_step; nia|].
    destruct (rdv (TSendW s k)); [|apply nil_fin]. apply postw_fin; lia. }
  intros t OK E. destruct t as [j|j|s' k|s' k|s' k|s' k|s'|s' k|s' k|s' u|s' k| |i|]; cbn [sw] in E; try lia; subst s'; cbn in OK.
  - apply acq_fin. exact OK.
  - apply sendc_fin. exact OK.
  - apply postc_fin. exact OK.
  - apply recvc_fin. exact OK.
  - apply init_fin.
  - apply postw_fin; lia.
  - apply go; [exact OK| |apply noacq; intros o [E|[E|[E|[]]]]; discriminate]. intros u [E|[E|[E|[]]]]; inversion E; subst u; [apply postw_fin; lia|]. apply WS; [lia|]. replace (k - 1 + 1) with k by lia. lia.
  - apply step_fin. lia.
  - apply WS; lia.
Qed.
End sweep.
Lemma sweeps_fin : forall s, 0 <= s < sweeps -> forall t, tok t -> sw t = s -> fin st t.
Proof using G R B SZ.
  intros s [L0 L1]. revert L1. pattern s. apply Zlt_0_ind; [|exact L0]. clear s L0. intros s IH L0 L1. apply sweep_fin; [lia|]. intros t OK L. apply (IH (sw t)); [lia|lia|exact OK|reflexivity].
Qed.
Lemma all_fin : forall t, tok t -> fin st t.
Proof using G R B SZ.
  pose proof (sweeps_le g) as SL. pose proof (spb1 g G). pose proof (tpb1 g G). assert (KB : 0 < nblocks g) by (apply (nblocks_lt g G); lia).
  assert (FF : fin st TFin).
  { apply go; [exact I|intros u [E|[]]; discriminate|]. intros o E. assert (PE : pc st TFin = O /\ o = sid g (Z.max 0 sweeps) 0).
    { unfold cur in E. cbn [prog b2td dprog] in E. destruct (pc st TFin) as [|[|n]]; cbn in E; inversion E; auto. }
    destruct PE as [PC ->].
    assert (U : sacq st (sid g (Z.max 0 sweeps) 0) <= Z.of_nat (length (@nil dthread))).
    { apply acq_upper. intros x Ix NZ. exfalso. apply (in_threads g G) in Ix as [_ OK]. apply facq_case in NZ as [(s1 & k1 & -> & ES & L)|[(s1 & -> & ES & L)|[(s1 & u & -> & ES & L)|(-> & ES & L)]]].
      - cbn in OK. pose proof (cv_block g G _ _ OK) as KB1. assert (0 <= k1 - 1) by apply OK. apply sid_inj in ES; lia.
      - cbn in OK. apply sid_inj in ES; lia.
      - destruct OK as [Ls1 Lu]. pose proof (kb g G u ltac:(lia)) as (U0 & U1). pose proof (act_block g G s1 (u / spb) Ls1 U0 ltac:(lia)). apply sid_inj in ES; lia.
      - rewrite PC in L. cbn in L. lia. }
    cbn [length] in U. assert (L1 : 1 <= srel st (sid g (Z.max 0 sweeps) 0)); [|lia]. destruct (Z_le_gt_dec sweeps 0) as [E0|NZ].
    + rewrite Z.max_l by lia. assert (T : 0 <= 0 < ntl g). { split; [lia|]. apply (ntl_lt g G). lia. }
      etransitivity; [|apply (rel_one st _ (TRel 0)); apply (in_threads g G); split; [exact SZ|exact T]]. cbn [B2TDistOrder.frel]. rewrite (fin_pc g rdv deff st _ (rel_fin _ T)). rewrite Z.div_0_l by lia. rewrite Z.eqb_refl. cbn [dprog length]. change (3 <=? Z.of_nat 3) with true. cbn [andb]. apply (nr_pos g G). exact T.
    + rewrite Z.max_r by lia. pose proof (steps_pos g G (sweeps - 1) ltac:(lia)). assert (F : fin st (TStep (sweeps - 1) 0)) by (apply (sweeps_fin (sweeps - 1)); [lia|cbn; lia|reflexivity]).
      etransitivity; [|apply (rel_one st _ (TStep (sweeps - 1) 0)); apply (in_threads g G); split; [exact SZ|cbn; lia]].
      pose proof (frel_step (sweeps - 1) 0 ltac:(lia) ltac:(lia) F) as FS. rewrite Z.div_0_l in FS by lia. replace (sweeps - 1 + 1) with sweeps in FS by lia. rewrite FS. destruct (extra _ _ _); lia. }
  assert (TT : forall i, tok (TTri i) -> (i = size -> m_cplx g = false -> fin st (TTri (size - 1))) -> fin st (TTri i)).
  { intros i OK H1. apply go; [exact OK| |apply noacq; intros o [E|[E|[E|[]]]]; discriminate]. intros u [E|[E|[E|[]]]]; inversion E; subst u; [exact FF|].
    destruct ((i =? size) && negb (m_cplx g) && (tri_tile g (size - 1) =? tri_tile g size)) eqn:C; [|apply nil_fin]. apply andb_prop in C as [C _]. apply andb_prop in C as [C1 C2]. apply H1; [lia|]. apply negb_true_iff. exact C2. }
  intros t OK. destruct t as [j|j|s' k|s' k|s' k|s' k|s'|s' k|s' k|s' u|s' k| |i|]; try (apply (sweeps_fin s'); [|exact OK|reflexivity]; cbn in OK; first [lia | apply (cv_sweep g G _ _ OK)]).
  - apply copy_fin. exact OK.
  - apply rel_fin. exact OK.
  - exact FF.
  - apply TT; [exact OK|]. intros _ CX. apply TT; [right; auto|lia].
  - apply nil_fin.
Qed.
End stuck.
Theorem b2td_progress : forall st, reach st -> sfinal P st \/ exists st', sstep dthread_eq P st st'.
Proof using G.
  intros st R. destruct (step_or_blocked dthread_eq P st) as [E|B]; [right; exact E|left]. intros t It. cbn [threads b2td] in *. apply (in_threads g G) in It as [SZ OK]. apply all_fin; auto.
Qed.
End progress.
