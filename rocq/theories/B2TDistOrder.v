(** * Distributed band_to_tridiagonal: which steps, copies and messages are over when a task goes on. *)
From Coq Require Import ZArith Lia List Bool.
From Verif Require Import Loop HouseModel DistGrid DistMat B2TMsgModel B2TMsgSpec B2TMsgProofs B2TSched SemModel SemProofs B2TDistModel B2TDistStruct.
Import ListNotations.
Local Open Scope Z_scope.

Section order.
Variable g : msg_cfg.
Hypothesis G : cfg_ok g.
Variable rdv : dthread -> bool.
Context {V : Type}.
Variable deff : dact -> (dloc -> V) -> dloc -> V.
Variable m0 : dloc -> V.
Notation size := (m_size g).
Notation nb := (m_nb g).
Notation b := (m_b g).
Notation nbb := (nb_band g).
Notation spb := (steps_per_block g).
Notation tpb := (tiles_per_block g).
Notation wpt := (workers_per_tile g).
Notation steps := (steps g).
Notation sweeps := (sweeps g).
Notation next_j := (next_j g).
Notation cv := (cv g).
Notation tok := (tok g).
Notation P := (b2td g rdv deff).
Notation reach := (sreach dthread_eq P m0).
Notation state := (sstate dthread dloc V).
Notation ths := (dthreads g).
Notation fin := (finished P).
Notation "st @ t" := (Z.of_nat (pc st t)) (at level 10, t at next level).

Lemma fin_nil : forall st, reach st -> fin st TNil.
Proof using G. intros st R. unfold finished. pose proof (pc_le dthread_eq P m0 st R TNil) as H. cbn [prog b2td dprog length] in *. lia. Qed.
Lemma jn : forall st t i u, reach st -> 0 < size -> tok t -> nth_error (dprog g rdv t) i = Some (IJoin u) -> Z.of_nat i < st @ t -> fin st u.
Proof using G. intros st t i u R SZ OK E L. apply (joined dthread_eq P m0 st R t i u); [apply (in_threads g G); auto|exact E|lia]. Qed.
Lemma fin_pc : forall st t, fin st t -> st @ t = Z.of_nat (length (dprog g rdv t)).
Proof using. clear G. intros st t F. unfold finished in F. rewrite F. reflexivity. Qed.

(** ** Counting *)
Definition facq (o : Z) (t : dthread) (p : Z) : Z :=
  match t with
  | TAcq s k => if (1 <=? p) && (sid g (Z.min s (last_sem g k)) k =? o) then 1 else 0
  | TInit s => if (2 <=? p) && (sid g s 0 =? o) then 1 else 0
  | TStep s u => if (4 <=? p) && (sid g s (u / spb) =? o) then 1 else 0
  | TFin => if (1 <=? p) && (sid g (Z.max 0 sweeps) 0 =? o) then 1 else 0
  | _ => 0
  end.
Definition frel (o : Z) (t : dthread) (p : Z) : Z :=
  match t with
  | TRel j => if (3 <=? p) && (sid g 0 (j / tpb) =? o) then nr_release g j else 0
  | TRecvC s k => if (4 <=? p) && (sid g s k =? o) then 1 else 0
  | TStep s u => if sid g (s + 1) (u / spb) =? o then (if 6 <=? p then 1 else 0) + (if (7 <=? p) && extra g s u then 1 else 0) else 0
  | _ => 0
  end.
Ltac pcase p := destruct p as [|[|[|[|[|[|[|p]]]]]]]; cbn [firstn zsum fold_right acq1 rel1 app]; rewrite ?firstn_nil; cbn [zsum fold_right acq1 rel1]; try reflexivity.
Ltac leb7 := repeat match goal with |- context [?a <=? ?c] => destruct (Z.leb_spec a c); try lia end; cbn [andb]; repeat match goal with |- context [?a =? ?c] => destruct (a =? c) end; try lia.
Lemma facq_ok : forall o t p, acqs P o t p = facq o t (Z.of_nat p).
Proof using. clear G.
  intros o t p. unfold acqs. cbn [prog b2td].
  destruct t as [j|j|s k|s k|s k|s k|s|s k|s k|s u|s k| |i|]; cbn [dprog facq]; try (pcase p; leb7; fail).
  - destruct (_ mod _ =? 0); cbn [app]; pcase p; leb7.
  - destruct (extra g s u); cbn [app]; pcase p; leb7.
Qed.
Lemma frel_ok : forall o t p, rels P o t p = frel o t (Z.of_nat p).
Proof using. clear G.
  intros o t p. unfold rels. cbn [prog b2td].
  destruct t as [j|j|s k|s k|s k|s k|s|s k|s k|s u|s k| |i|]; cbn [dprog frel]; try (pcase p; leb7; fail).
  - destruct (_ mod _ =? 0); cbn [app]; pcase p; leb7.
  - destruct (extra g s u); cbn [app]; pcase p; leb7.
Qed.
Definition sacq (st : state) (o : Z) : Z := zsum (fun t => facq o t (st @ t)) ths.
Definition srel (st : state) (o : Z) : Z := zsum (fun t => frel o t (st @ t)) ths.
Lemma nr_pos : forall j, 0 <= j < ntl g -> 1 <= nr_release g j.
Proof using G.
  intros j Lj. unfold nr_release. pose proof (g_c1 g G). destruct (j <? ntl g - 1); [lia|]. assert (j * nb < size) by (apply (ntl_lt g G); lia). pose proof (g_b g G).
  assert (0 < ceil_div (size - j * nb) b) by (apply (ceil_div_lt (size - j * nb) b 0); lia). lia.
Qed.
Lemma frel_nonneg : forall o t p, tok t -> 0 <= frel o t p.
Proof using G.
  intros o t p OK. destruct t as [j|j|s k|s k|s k|s k|s|s k|s k|s u|s k| |i|]; cbn [frel]; try lia.
  - cbn in OK. pose proof (nr_pos j OK). destruct (_ && _); lia.
  - destruct (_ && _); lia.
  - destruct (_ =? _); [|lia]. destruct (6 <=? p), ((7 <=? p) && extra g s u); lia.
Qed.
Lemma facq_nonneg : forall o t p, 0 <= facq o t p.
Proof using. clear G. intros o t p. destruct t; cbn [facq]; try lia; destruct (_ && _); lia. Qed.
Lemma sem_eq : forall st o, reach st -> sem st o = srel st o - sacq st o.
Proof using G.
  intros st o R. rewrite (sem_count dthread_eq P (threads_nodup g G) m0 st R o). unfold srel, sacq. cbn [threads b2td]. f_equal; apply zsum_ext; intros; [apply frel_ok|apply facq_ok].
Qed.
Lemma irel_nonneg : forall t s n, In t (threads P) -> In (IRel s n) (prog P t) -> 0 <= n.
Proof using G.
  intros t o n It I. cbn [threads prog b2td] in *. apply (in_threads g G) in It as [_ OK].
  destruct t as [j|j|s k|s k|s k|s k|s|s k|s k|s u|s k| |i|]; cbn [dprog app In] in I; try (exfalso; intuition congruence).
  - destruct I as [I|[I|[I|[]]]]; try discriminate. inversion I. cbn in OK. pose proof (nr_pos j OK). lia.
  - destruct I as [I|[I|[I|[I|[]]]]]; try discriminate. inversion I. lia.
  - exfalso. destruct I as [I|[I|[I|I]]]; try discriminate. destruct (_ =? _); [destruct I as [I|[]]; discriminate|destruct I].
  - destruct I as [I|[I|[I|[I|[I|[I|I]]]]]]; try discriminate; [inversion I; lia|]. destruct (extra g s u); [|destruct I]. destruct I as [I|[]]. inversion I. lia.
Qed.
Lemma acq_le_rel : forall st o, reach st -> sacq st o <= srel st o.
Proof using G. intros st o R. pose proof (sem_eq st o R). pose proof (sem_nonneg dthread_eq P irel_nonneg m0 st R o). lia. Qed.

(** ** Chains of joins *)
Lemma step_tok : forall s t, 0 <= s < sweeps -> 0 <= t < steps s -> tok (TStep s t) /\ 0 < size.
Proof using G. intros s t Ls Lt. pose proof (sweeps_le g). split; [split; assumption|lia]. Qed.
Lemma sendw_step : forall st s k, reach st -> 0 <= s < sweeps -> 0 <= k -> (k + 1) * spb < steps s -> 1 <= st @ (TSendW s k) -> fin st (TStep s ((k + 1) * spb - 1)).
Proof using G.
  intros st s k R Ls Lk A L. pose proof (sweeps_le g). replace ((k + 1) * spb - 1) with (last_step g s k) by (unfold last_step; lia).
  apply (jn st (TSendW s k) 0); [exact R|lia|cbn; auto|reflexivity|lia].
Qed.
Lemma recvw_send : forall st s k, reach st -> 0 <= s < sweeps -> 1 <= k -> k * spb < steps s -> 2 <= st @ (TRecvW s k) -> fin st (TSendW s (k - 1)).
Proof using G. intros st s k R Ls Lk A L. pose proof (sweeps_le g). apply (jn st (TRecvW s k) 1); [exact R|lia|cbn; auto|reflexivity|lia]. Qed.
Lemma step_prev_fin : forall st s t, reach st -> 0 <= s < sweeps -> 0 <= t < steps s -> 1 <= st @ (TStep s t) -> fin st (step_prev g s t).
Proof using G. intros st s t R Ls Lt L. destruct (step_tok s t Ls Lt) as [OK SZ]. apply (jn st (TStep s t) 0); [exact R|exact SZ|exact OK|reflexivity|lia]. Qed.
Lemma step_len : forall s t, 6 <= Z.of_nat (length (dprog g rdv (TStep s t))).
Proof using. clear G. intros s t. cbn [dprog app length]. lia. Qed.
Lemma step_back : forall st s t, reach st -> 0 <= s < sweeps -> 0 < t < steps s -> 1 <= st @ (TStep s t) -> fin st (TStep s (t - 1)).
Proof using G.
  intros st s t R Ls Lt L. pose proof (step_prev_fin st s t R Ls ltac:(lia) L) as F. unfold step_prev in F. destruct (Z.eqb_spec t 0); [lia|].
  destruct (Z.eqb_spec (t mod spb) 0) as [M|M]; [|exact F]. pose proof (spb1 g G). pose proof (kb0 g G t ltac:(lia) M) as E. pose proof (kb g G t ltac:(lia)) as (K0 & K1). set (k := t / spb) in *.
  assert (1 <= k) by nia. assert (A : k * spb < steps s) by lia.
  assert (F2 : fin st (TSendW s (k - 1))) by (apply recvw_send; auto; rewrite (fin_pc _ _ F); cbn; lia).
  replace (t - 1) with ((k - 1 + 1) * spb - 1) by (replace (k - 1 + 1) with k by lia; lia). apply sendw_step; auto; [lia|replace (k - 1 + 1) with k by lia; lia|rewrite (fin_pc _ _ F2); cbn; lia].
Qed.
Lemma step_chain : forall st s t t', reach st -> 0 <= s < sweeps -> 0 <= t' < t -> t < steps s -> 1 <= st @ (TStep s t) -> fin st (TStep s t').
Proof using G.
  intros st s t t' R Ls L Lt LP. assert (L0 : 0 <= t) by lia. revert L Lt LP. pattern t. apply Zlt_0_ind; [|exact L0]. clear t L0. intros t IH L0 L Lt LP.
  pose proof (step_back st s t R Ls ltac:(lia) LP) as F. destruct (Z.eq_dec t' (t - 1)) as [->|N]; [exact F|].
  apply (IH (t - 1)); [lia|lia|lia|]. rewrite (fin_pc _ _ F). pose proof (step_len s (t - 1)). lia.
Qed.
Lemma step_init : forall st s t, reach st -> 0 <= s < sweeps -> 0 <= t < steps s -> 1 <= st @ (TStep s t) -> fin st (TInit s).
Proof using G.
  intros st s t R Ls Lt LP. assert (L : 1 <= st @ (TStep s 0)).
  { destruct (Z.eq_dec t 0) as [->|N]; [exact LP|]. rewrite (fin_pc _ _ (step_chain st s t 0 R Ls ltac:(lia) ltac:(lia) LP)). pose proof (step_len s 0). lia. }
  pose proof (step_prev_fin st s 0 R Ls ltac:(lia) L) as F. exact F.
Qed.
(** the task that acquires the semaphore of block k of sweep s first *)
Definition first_acq (s k : Z) : dthread := if k =? 0 then TInit s else TAcq s k.
Lemma first_done : forall st s t, reach st -> 0 <= s < sweeps -> 0 <= t < steps s -> 2 <= st @ (TStep s t) -> fin st (first_acq s (t / spb)) /\ tok (first_acq s (t / spb)).
Proof using G.
  intros st s t R Ls Lt LP. unfold first_acq. destruct (Z.eqb_spec (t / spb) 0) as [E|N]; [split; [apply (step_init st s t); auto; lia|exact Ls]|].
  pose proof (kb g G t ltac:(lia)) as (K0 & K1). set (k := t / spb) in *. assert (A : k * spb < steps s) by lia. pose proof (spb1 g G). assert (CV : cv s (k - 1)) by (apply (act_cv g G); [exact Ls|lia|exact A]).
  split; [|exact CV]. assert (L : 2 <= st @ (TStep s (k * spb))).
  { destruct (Z.eq_dec t (k * spb)) as [E2|N2]; [rewrite <- E2; exact LP|]. rewrite (fin_pc _ _ (step_chain st s t (k * spb) R Ls ltac:(nia) ltac:(lia) ltac:(lia))). pose proof (step_len s (k * spb)). lia. }
  destruct (step_tok s (k * spb) Ls ltac:(nia)) as [OK SZ]. apply (jn st (TStep s (k * spb)) 1); [exact R|exact SZ|exact OK| |lia].
  cbn [dprog app nth_error]. rewrite Z.mod_mul by lia. rewrite Z.div_mul by lia. replace (0 <? k * spb) with true by (symmetry; apply Z.ltb_lt; nia). reflexivity.
Qed.
Lemma first_sid : forall s k, 0 <= s < sweeps -> 0 <= k -> k * spb < steps s -> Z.min s (last_sem g k) = s \/ k = 0.
Proof using G. intros s k Ls Lk A. destruct (Z.eq_dec k 0); [right; assumption|left]. apply (act_iff g G) in A; [|exact Ls|lia]. unfold last_sem. lia. Qed.

(** ** A step that has acquired its semaphore *)
Lemma zsum1 : forall {X} (l : list X), zsum (fun _ => 1) l = Z.of_nat (length l).
Proof using. clear G. intros X l. induction l as [|x l IH]; [reflexivity|]. rewrite zsum_cons, IH. cbn [length]. lia. Qed.
Lemma range_len : forall lo hi, lo <= hi -> Z.of_nat (length (zrange lo hi)) = hi - lo.
Proof using. clear G. intros lo hi L. rewrite zrange_length. lia. Qed.
Lemma map_step_nodup : forall s lo hi, NoDup (map (TStep s) (zrange lo hi)).
Proof using. clear G. intros. apply FinFun.Injective_map_NoDup; [intros x y E; congruence|apply zrange_NoDup]. Qed.
Lemma acq_lower : forall st s t, reach st -> 0 <= s < sweeps -> 0 <= t < steps s -> 4 <= st @ (TStep s t) -> t - t / spb * spb + 2 <= sacq st (sid g s (t / spb)).
Proof using G.
  intros st s t R Ls Lt LP. destruct (step_tok s t Ls Lt) as [OK SZ]. pose proof (kb g G t ltac:(lia)) as (K0 & K1). destruct (first_done st s t R Ls Lt ltac:(lia)) as [F FT]. pose proof (spb1 g G). set (k := t / spb) in *.
  assert (E : t - k * spb + 2 = zsum (fun _ => 1) (first_acq s k :: map (TStep s) (zrange (k * spb) (t + 1)))).
  { rewrite zsum1. cbn [length]. rewrite map_length. pose proof (range_len (k * spb) (t + 1) ltac:(lia)). lia. }
  rewrite E. unfold sacq. apply zsum_lower.
  - constructor; [|apply map_step_nodup]. intros I. apply in_map_iff in I as (u & E1 & _). unfold first_acq in E1. destruct (k =? 0); discriminate.
  - intros x [<-|I]; [apply (in_threads g G); auto|]. apply in_map_iff in I as (u & <- & I). apply in_zrange in I. apply (in_threads g G). split; [exact SZ|]. split; [exact Ls|]. nia.
  - intros x _. apply facq_nonneg.
  - intros x [<-|I].
    + pose proof (fin_pc _ _ F) as FP. unfold first_acq in *. destruct (Z.eqb_spec k 0) as [E0|N].
      * assert (L2 : 2 <= st @ (TInit s)) by (rewrite FP; cbn [dprog app length]; lia). cbn [facq]. rewrite E0, Z.eqb_refl, andb_true_r. apply Z.leb_le in L2. rewrite L2. lia.
      * rewrite FP. cbn [facq dprog length]. destruct (first_sid s k Ls K0 ltac:(lia)) as [->|]; [|contradiction]. rewrite Z.eqb_refl. cbn. lia.
    + apply in_map_iff in I as (u & <- & I). apply in_zrange in I. cbn [facq]. assert (UB : u / spb = k) by (apply (kb_eq g G); lia). rewrite UB, Z.eqb_refl, andb_true_r.
      destruct (Z.eq_dec u t) as [->|NU]; [apply Z.leb_le in LP; rewrite LP; lia|]. rewrite (fin_pc _ _ (step_chain st s t u R Ls ltac:(nia) ltac:(lia) ltac:(lia))). pose proof (step_len s u). destruct (Z.leb_spec 4 (Z.of_nat (length (dprog g rdv (TStep s u))))); lia.
Qed.
(** ** Releases *)
Lemma post_dep : forall st s k, reach st -> cv s k -> 3 <= st @ (TRecvC s k) -> fin st (col_dep g s k) /\ fin st (TSendC s (k + 1)).
Proof using G.
  intros st s k R C L. pose proof (cv_sweep g G s k C). pose proof (sweeps_le g). assert (SZ : 0 < size) by lia.
  assert (F : fin st (TPostC s k)) by (apply (jn st (TRecvC s k) 0); [exact R|exact SZ|exact C|reflexivity|lia]).
  split; [|apply (jn st (TRecvC s k) 1); [exact R|exact SZ|exact C|reflexivity|lia]].
  apply (jn st (TPostC s k) 0); [exact R|exact SZ|exact C|reflexivity|]. rewrite (fin_pc _ _ F). cbn. lia.
Qed.
Lemma frel_case : forall o t p, frel o t p <> 0 ->
  (exists j, t = TRel j /\ o = sid g 0 (j / tpb) /\ 3 <= p) \/ (exists s k, t = TRecvC s k /\ o = sid g s k /\ 4 <= p) \/
  (exists s u, t = TStep s u /\ o = sid g (s + 1) (u / spb) /\ 6 <= p).
Proof using. clear G.
  intros o t p H. destruct t as [j|j|s k|s k|s k|s k|s|s k|s k|s u|s k| |i|]; cbn [frel] in H; try congruence.
  - left. exists j. destruct (Z.leb_spec 3 p), (Z.eqb_spec (sid g 0 (j / tpb)) o); cbn in H; try congruence. auto.
  - right. left. exists s, k. destruct (Z.leb_spec 4 p), (Z.eqb_spec (sid g s k) o); cbn in H; try congruence. auto.
  - right. right. exists s, u. destruct (Z.eqb_spec (sid g (s + 1) (u / spb)) o); [|congruence]. split; [reflexivity|]. split; [auto|]. destruct (Z.leb_spec 6 p); [assumption|]. destruct (Z.leb_spec 7 p); [lia|]. cbn in H. lia.
Qed.
Lemma recvc_steps : forall st s k u, reach st -> cv (s + 1) k -> 0 <= s -> 0 <= u < (k + 1) * spb -> 4 <= st @ (TRecvC (s + 1) k) -> fin st (TStep s u).
Proof using G.
  intros st s k u R C Ls Lu L. destruct (post_dep st (s + 1) k R C ltac:(lia)) as [F _]. unfold col_dep in F. destruct (Z.eqb_spec (s + 1) 0); [lia|]. replace (s + 1 - 1) with s in F by lia.
  assert (C' := cv_prev g s k C Ls). rewrite (last_cv g G s k C') in F. pose proof (cv_full g G s k C'). pose proof (cv_sweep g G s k C').
  destruct (Z.eq_dec u ((k + 1) * spb - 1)) as [->|N]; [exact F|]. apply (step_chain st s ((k + 1) * spb - 1) u R); [lia|lia|lia|]. rewrite (fin_pc _ _ F). pose proof (step_len s ((k + 1) * spb - 1)). lia.
Qed.
Lemma extra_last : forall s u, extra g s u = true -> u = steps s - 1 /\ next_j s (u / spb) <> size - 2.
Proof using. clear G. intros s u E. unfold extra in E. apply andb_prop in E as [E1 E2]. split; lia. Qed.
Lemma rel_upper : forall st s k t', reach st -> 0 <= s < sweeps -> 0 <= k -> k * spb <= t' < (k + 1) * spb -> t' < steps s -> st @ (TStep s t') < 6 -> srel st (sid g (s + 1) k) <= t' - k * spb.
Proof using G.
  intros st s k t' R Ls Lk Lt Ls' NP. pose proof (spb1 g G). assert (KB := act_block g G s k Ls Lk ltac:(lia)).
  assert (E : t' - k * spb = zsum (fun _ => 1) (map (TStep s) (zrange (k * spb) t'))) by (rewrite zsum1, map_length; rewrite range_len; lia).
  rewrite E. unfold srel. apply zsum_upper.
  - apply (threads_nodup g G).
  - intros x Ix NZ. apply (in_threads g G) in Ix as [SZ OK]. apply frel_case in NZ as [(j & -> & ES & L)|[(s1 & k1 & -> & ES & L)|(s1 & u & -> & ES & L)]].
    + exfalso. cbn in OK. pose proof (tb g G j ltac:(lia)) as (T0 & T1). assert (j / tpb < nblocks g). { apply (nblocks_lt g G). rewrite (nbb_t g G). assert (j * nb < size) by (apply (ntl_lt g G); lia). pose proof (g_nb g G). nia. }
      apply sid_inj in ES; lia.
    + exfalso. cbn in OK. pose proof (cv_block g G s1 k1 OK). apply sid_inj in ES; [|lia|assert (0 <= k1) by apply OK; lia]. destruct ES as [<- <-]. pose proof (recvc_steps st s k t' R OK ltac:(lia) ltac:(nia) L) as F. pose proof (fin_pc _ _ F). pose proof (step_len s t'). lia.
    + destruct OK as [Ls1 Lu]. pose proof (kb g G u ltac:(lia)) as (U0 & U1). pose proof (act_block g G s1 (u / spb) Ls1 U0 ltac:(lia)). apply sid_inj in ES; [|lia|lia]. destruct ES as [ES EU]. assert (s1 = s) by lia. subst s1. rewrite <- EU in U1.
      apply in_map. apply in_zrange. split; [lia|]. destruct (Z_lt_le_dec u t') as [C|C]; [exact C|]. exfalso. destruct (Z.eq_dec u t') as [->|N]; [lia|].
      pose proof (step_chain st s u t' R Ls ltac:(nia) ltac:(lia) ltac:(lia)) as F. pose proof (fin_pc _ _ F). pose proof (step_len s t'). lia.
  - intros x I. apply in_map_iff in I as (u & <- & I). apply in_zrange in I. cbn [frel]. destruct (extra g s u) eqn:EX; [apply extra_last in EX; lia|]. rewrite andb_false_r. destruct (_ =? _); [destruct (6 <=? _); lia|lia].
  - intros; lia.
Qed.
(** the initial releases of block k *)
Lemma rel_chain : forall st k j j', reach st -> k * tpb <= j' < j -> 0 <= k -> j < (k + 1) * tpb -> j < ntl g -> fin st (TRel j) -> fin st (TRel j').
Proof using G.
  intros st k j j' R L Lk Lj Ln F. pose proof (tpb1 g G). assert (L0 : 0 <= j) by nia. revert L Lj Ln F. pattern j. apply Zlt_0_ind; [|exact L0]. clear j L0. intros j IH L0 L Lj Ln F.
  assert (SZ : 0 < size). { assert (0 < ntl g) by lia. apply (ntl_lt g G) in H0. lia. }
  assert (F' : fin st (TRel (j - 1))).
  { apply (jn st (TRel j) 1); [exact R|exact SZ|split; assumption| |rewrite (fin_pc _ _ F); cbn; lia]. cbn [dprog nth_error]. assert (M : j mod tpb <> 0). { intros M. pose proof (Z.div_mod j tpb ltac:(lia)) as DM. rewrite (tb_eq g G j k) in DM by lia. lia. }
    apply Z.eqb_neq in M. rewrite M. reflexivity. }
  destruct (Z.eq_dec j' (j - 1)) as [->|N]; [exact F'|]. apply (IH (j - 1)); [nia|lia|lia|lia|exact F'].
Qed.
Lemma rel_copy : forall st j, reach st -> 0 <= j < ntl g -> 1 <= st @ (TRel j) -> fin st (TCopy j).
Proof using G.
  intros st j R Lj L. assert (SZ : 0 < size). { assert (0 < ntl g) by lia. apply (ntl_lt g G) in H. lia. } apply (jn st (TRel j) 0); [exact R|exact SZ|exact Lj|reflexivity|lia].
Qed.
Lemma cv0_full : forall s k, cv s k -> (k + 1) * tpb <= ntl g - 1.
Proof using G. intros s k (A & B & C). unfold B2TDistModel.next_j in C. assert ((k + 1) * tpb < ntl g); [|lia]. apply (ntl_lt g G). rewrite <- (nbb_t g G). lia. Qed.
Lemma rel0_cases : forall st k x, reach st -> 0 <= k < nblocks g -> In x ths -> frel (sid g 0 k) x (st @ x) <> 0 -> (exists j, x = TRel j /\ k * tpb <= j < (k + 1) * tpb /\ j < ntl g /\ fin st (TRel j)) \/ (x = TRecvC 0 k /\ cv 0 k /\ 4 <= st @ (TRecvC 0 k)).
Proof using G.
  intros st k x R Lk Ix NZ. apply (in_threads g G) in Ix as [SZ OK]. apply frel_case in NZ as [(j & -> & ES & L)|[(s1 & k1 & -> & ES & L)|(s1 & u & -> & ES & L)]].
  - left. exists j. cbn in OK. pose proof (tb g G j ltac:(lia)) as (T0 & T1). assert (j / tpb < nblocks g). { apply (nblocks_lt g G). rewrite (nbb_t g G). assert (j * nb < size) by (apply (ntl_lt g G); lia). pose proof (g_nb g G). nia. }
    apply sid_inj in ES; [|lia|lia]. destruct ES as [_ ->]. split; [reflexivity|]. split; [exact T1|]. split; [lia|]. unfold finished. pose proof (pc_le dthread_eq P m0 st R (TRel j)) as PL. cbn [prog b2td dprog length] in *. lia.
  - right. cbn in OK. pose proof (cv_block g G s1 k1 OK). assert (0 <= k1) by apply OK. apply sid_inj in ES; [|lia|lia]. destruct ES as [<- <-]. auto.
  - exfalso. destruct OK as [Ls1 Lu]. pose proof (kb g G u ltac:(lia)) as (U0 & U1). pose proof (act_block g G s1 (u / spb) Ls1 U0 ltac:(lia)). apply sid_inj in ES; [|lia|lia]. lia.
Qed.
Lemma zsumc : forall {X} c (l : list X), zsum (fun _ => c) l = Z.of_nat (length l) * c.
Proof using. clear G. intros X c l. induction l as [|x l IH]; [cbn; lia|]. rewrite zsum_cons, IH. cbn [length]. lia. Qed.
Lemma rel0_upper : forall st k j, reach st -> 0 <= k -> k * tpb <= j < (k + 1) * tpb -> j < ntl g -> ~ fin st (TRel j) -> srel st (sid g 0 k) <= (j - k * tpb) * (nb / b).
Proof using G.
  intros st k j R Lk Lj Ln NF. pose proof (tpb1 g G). pose proof (g_c1 g G). assert (KB : 0 <= k < nblocks g). { split; [exact Lk|]. apply (nblocks_lt g G). rewrite (nbb_t g G). assert (j * nb < size) by (apply (ntl_lt g G); lia). pose proof (g_nb g G). nia. }
  assert (E : (j - k * tpb) * (nb / b) = zsum (fun _ => nb / b) (map TRel (zrange (k * tpb) j))) by (rewrite zsumc, map_length; rewrite range_len; lia).
  rewrite E. unfold srel. apply zsum_upper.
  - apply (threads_nodup g G).
  - intros x Ix NZ. apply (rel0_cases st k x R KB Ix) in NZ as [(j' & -> & Lj' & Ln' & F)|(-> & C & L)].
    + apply in_map. apply in_zrange. split; [lia|]. destruct (Z_lt_le_dec j' j) as [D|D]; [exact D|]. exfalso. apply NF. destruct (Z.eq_dec j' j) as [->|N]; [exact F|]. apply (rel_chain st k j' j); auto; lia.
    + exfalso. apply NF. destruct (post_dep st 0 k R C ltac:(lia)) as [F _]. unfold col_dep in F. rewrite Z.eqb_refl in F. pose proof (cv0_full 0 k C). rewrite Z.min_l in F by lia.
      destruct (Z.eq_dec j ((k + 1) * tpb - 1)) as [->|N]; [exact F|]. apply (rel_chain st k ((k + 1) * tpb - 1) j); auto; lia.
  - intros x I. apply in_map_iff in I as (j' & <- & I). apply in_zrange in I. cbn [frel]. unfold nr_release. destruct (Z.ltb_spec j' (ntl g - 1)); [|lia]. destruct (_ && _); lia.
  - intros; lia.
Qed.
Lemma fin_dec : forall st t, fin st t \/ ~ fin st t.
Proof using. clear G. intros st t. unfold finished. destruct (Nat.eq_dec (pc st t) (length (prog P t))); auto. Qed.
Lemma acq0_copy : forall st k j, reach st -> 0 <= k -> k * tpb <= j < (k + 1) * tpb -> j < ntl g -> (j - k * tpb) * (nb / b) < sacq st (sid g 0 k) -> fin st (TCopy j).
Proof using G.
  intros st k j R Lk Lj Ln L. pose proof (tpb1 g G). destruct (fin_dec st (TRel j)) as [F|F].
  - apply rel_copy; [exact R|nia|]. rewrite (fin_pc _ _ F). cbn. lia.
  - pose proof (rel0_upper st k j R Lk Lj Ln F). pose proof (acq_le_rel st (sid g 0 k) R). lia.
Qed.

(** ** The last step of a block needs the column of the next block *)
Lemma tpb_spb : tpb * (nb / b) = spb.
Proof using G. pose proof (g_b g G). destruct (g_bb g G) as [E _]. destruct (g_spb g G) as [E2 _]. pose proof (g_c g G) as E3. apply (Z.mul_reg_l _ _ b); [lia|]. rewrite <- E2, E. rewrite E3 at 2. ring. Qed.
Lemma no_extra : forall s k u, 0 <= s -> cv (s + 1) k -> k * spb <= u < (k + 1) * spb -> 0 <= u -> extra g s u = false.
Proof using G.
  intros s k u Ls C Lu L0. destruct (extra g s u) eqn:EX; [|reflexivity]. exfalso. apply extra_last in EX as [E1 E2]. rewrite (kb_eq g G u k Lu) in E2.
  pose proof (cv_sweep g G _ _ C). destruct C as (A & B & C). unfold B2TDistModel.next_j in *. assert (A2 : (k + 1) * spb < steps s) by (apply (act_iff g G); lia). lia.
Qed.
Lemma col_needed : forall st s k, reach st -> cv s k -> 4 <= st @ (TStep s ((k + 1) * spb - 1)) -> 4 <= st @ (TRecvC s k).
Proof using G.
  intros st s k R C LP. pose proof (cv_sweep g G s k C) as Ls. pose proof (cv_full g G s k C) as FU. pose proof (spb1 g G). assert (K0 : 0 <= k) by apply C. pose proof (cv_block g G s k C) as KB.
  pose proof (acq_lower st s ((k + 1) * spb - 1) R Ls ltac:(nia) LP) as AL. rewrite (kb_eq g G _ k) in AL by lia. pose proof (acq_le_rel st (sid g s k) R) as AR.
  destruct (Z_lt_le_dec (st @ (TRecvC s k)) 4) as [NP|]; [|assumption]. exfalso.
  destruct (Z.eq_dec s 0) as [->|NS].
  - assert (U : srel st (sid g 0 k) <= zsum (fun _ => nb / b) (map TRel (zrange (k * tpb) ((k + 1) * tpb)))).
    { unfold srel. pose proof (cv0_full 0 k C). pose proof (g_c1 g G). apply zsum_upper.
      - apply (threads_nodup g G).
      - intros x Ix NZ. apply (rel0_cases st k x R ltac:(lia) Ix) in NZ as [(j' & -> & Lj' & Ln' & F)|(-> & _ & L)]; [|lia]. apply in_map. apply in_zrange. lia.
      - intros x I. apply in_map_iff in I as (j' & <- & I). apply in_zrange in I. cbn [frel]. unfold nr_release. destruct (Z.ltb_spec j' (ntl g - 1)); [|lia]. destruct (_ && _); lia.
      - intros; lia. }
    rewrite zsumc, map_length in U. pose proof (tpb1 g G). rewrite range_len in U by lia. pose proof tpb_spb. nia.
  - assert (U : srel st (sid g s k) <= zsum (fun _ => 1) (map (TStep (s - 1)) (zrange (k * spb) ((k + 1) * spb)))).
    { unfold srel. apply zsum_upper.
      - apply (threads_nodup g G).
      - intros x Ix NZ. apply (in_threads g G) in Ix as [SZ OK]. apply frel_case in NZ as [(j & -> & ES & L)|[(s1 & k1 & -> & ES & L)|(s1 & u & -> & ES & L)]].
        + exfalso. cbn in OK. pose proof (tb g G j ltac:(lia)) as (T0 & T1). assert (j / tpb < nblocks g). { apply (nblocks_lt g G). rewrite (nbb_t g G). assert (j * nb < size) by (apply (ntl_lt g G); lia). pose proof (g_nb g G). nia. }
          apply sid_inj in ES; lia.
        + exfalso. cbn in OK. pose proof (cv_block g G s1 k1 OK). assert (0 <= k1) by apply OK. apply sid_inj in ES; [|lia|lia]. destruct ES as [<- <-]. lia.
        + destruct OK as [Ls1 Lu]. pose proof (kb g G u ltac:(lia)) as (U0 & U1). pose proof (act_block g G s1 (u / spb) Ls1 U0 ltac:(lia)). apply sid_inj in ES; [|lia|lia]. destruct ES as [ES EU]. assert (s1 = s - 1) by lia. subst s1. rewrite <- EU in U1.
          apply in_map. apply in_zrange. lia.
      - intros x I. apply in_map_iff in I as (u & <- & I). apply in_zrange in I. cbn [frel]. rewrite (no_extra (s - 1) k u) by (try lia; try nia; replace (s - 1 + 1) with s by lia; assumption). rewrite andb_false_r. destruct (_ =? _); [destruct (6 <=? _); lia|lia].
      - intros; lia. }
    rewrite zsum1, map_length in U. rewrite range_len in U by lia. lia.
Qed.
(** ** The steps of the earlier sweeps *)
Definition D (st : state) (s u : Z) : Prop := forall t, 0 <= t < steps s -> t < u -> 5 <= st @ (TStep s t).
Lemma D_of : forall st s t, reach st -> 0 <= s < sweeps -> t < steps s -> 5 <= st @ (TStep s t) -> D st s (t + 1).
Proof using G.
  intros st s t R Ls Lt L u Lu L2. destruct (Z.eq_dec u t) as [->|N]; [exact L|]. rewrite (fin_pc _ _ (step_chain st s t u R Ls ltac:(lia) Lt ltac:(lia))). pose proof (step_len s u). lia.
Qed.
Lemma D_le : forall st s u u', D st s u -> u' <= u -> D st s u'.
Proof using. clear G. intros st s u u' H L t Lt L2. apply H; lia. Qed.
Lemma acq_step : forall st s k m, reach st -> 0 <= s < sweeps -> 0 <= k -> 0 <= m -> m < spb -> k * spb + m < steps s -> m < sacq st (sid g (s + 1) k) -> D st s (k * spb + m + 1).
Proof using G.
  intros st s k m R Ls Lk Lm Lm2 Ln L. pose proof (acq_le_rel st (sid g (s + 1) k) R). apply D_of; [exact R|exact Ls|exact Ln|].
  destruct (Z_lt_le_dec (st @ (TStep s (k * spb + m))) 6) as [C|C]; [|lia]. pose proof (rel_upper st s k (k * spb + m) R Ls Lk ltac:(lia) Ln C). lia.
Qed.
Lemma acq1_D : forall st s k, reach st -> cv s (k - 1) -> 1 <= st @ (TAcq s k) -> let o := Z.min s (last_sem g k) in 1 <= o -> D st (o - 1) (k * spb + 1).
Proof using G.
  intros st s k R C LP o Lo. pose proof (cv_sweep g G _ _ C) as Ls. pose proof (sweeps_le g). pose proof (spb1 g G). assert (K1 : 0 <= k - 1) by apply C.
  assert (A : k * spb < steps (o - 1)). { apply (act_iff g G); unfold o, last_sem in *; lia. }
  replace (k * spb + 1) with (k * spb + 0 + 1) by lia. apply acq_step; [exact R|unfold o in *; lia|lia|lia|lia|lia|]. replace (o - 1 + 1) with o by lia.
  assert (SZ : 0 < size) by lia. unfold sacq. assert (H1 : facq (sid g o k) (TAcq s k) (st @ (TAcq s k)) <= zsum (fun t => facq (sid g o k) t (st @ t)) ths).
  { apply (zsum_ge1 (fun t => facq (sid g o k) t (st @ t))); [apply (in_threads g G); split; [exact SZ|exact C]|intros; apply facq_nonneg]. }
  cbn [facq] in H1. fold o in H1. rewrite Z.eqb_refl, andb_true_r in H1. apply Z.leb_le in LP. rewrite LP in H1. lia.
Qed.
Lemma init_D : forall st s, reach st -> 0 <= s -> s + 1 < sweeps -> 2 <= st @ (TInit (s + 1)) -> D st s 1.
Proof using G.
  intros st s R L0 L1 LP. pose proof (sweeps_le g). pose proof (spb1 g G). pose proof (steps_pos g G s ltac:(lia)). replace 1 with (0 * spb + 0 + 1) by lia. apply acq_step; [exact R|lia|lia|lia|lia|lia|].
  unfold sacq. assert (H1' : facq (sid g (s + 1) 0) (TInit (s + 1)) (st @ (TInit (s + 1))) <= zsum (fun t => facq (sid g (s + 1) 0) t (st @ t)) ths).
  { apply (zsum_ge1 (fun t => facq (sid g (s + 1) 0) t (st @ t))); [apply (in_threads g G); split; [lia|cbn; lia]|intros; apply facq_nonneg]. }
  cbn [facq] in H1'. rewrite Z.eqb_refl, andb_true_r in H1'. apply Z.leb_le in LP. rewrite LP in H1'. lia.
Qed.
Lemma recvc_acq : forall st s k, reach st -> cv s k -> 3 <= st @ (TRecvC s k) -> fin st (TSendC s (k + 1)) /\ fin st (TAcq s (k + 1)).
Proof using G.
  intros st s k R C L. destruct (post_dep st s k R C L) as [_ F]. split; [exact F|]. pose proof (cv_sweep g G s k C). pose proof (sweeps_le g).
  apply (jn st (TSendC s (k + 1)) 0); [exact R|lia|cbn; replace (k + 1 - 1) with k by lia; exact C|reflexivity|]. rewrite (fin_pc _ _ F). cbn. lia.
Qed.
Lemma D_step : forall st s t, reach st -> 0 <= s -> s + 1 < sweeps -> 0 <= t < steps (s + 1) -> 4 <= st @ (TStep (s + 1) t) -> D st s (t + 2).
Proof using G.
  intros st s t R L0 L1 Lt LP. pose proof (steps_next g G s L0 L1) as SN. pose proof (kb g G t ltac:(lia)) as (K0 & K1). pose proof (spb1 g G).
  pose proof (acq_lower st (s + 1) t R ltac:(lia) Lt LP) as AL. set (k := t / spb) in *.
  destruct (Z_lt_le_dec (t + 1) (steps s)) as [A|A].
  - destruct (Z_lt_le_dec (t + 1) ((k + 1) * spb)) as [A2|A2].
    + replace (t + 2) with (k * spb + (t + 1 - k * spb) + 1) by lia. apply acq_step; auto; lia.
    + assert (ET : t = (k + 1) * spb - 1) by lia. assert (C : cv (s + 1) k).
      { assert (A3 : (k + 1) * spb < steps s) by lia. apply (act_iff g G) in A3; [|lia|lia]. unfold B2TDistStruct.cv, B2TDistModel.next_j. lia. }
      rewrite ET in LP. pose proof (col_needed st (s + 1) k R C LP) as NC. destruct (recvc_acq st (s + 1) k R C ltac:(lia)) as [_ FA].
      assert (C' : cv (s + 1) (k + 1 - 1)) by (replace (k + 1 - 1) with k by lia; exact C).
      assert (A3 : s + (k + 1) * nbb < size - 2). { apply (act_iff g G); [lia|lia|lia]. }
      pose proof (acq1_D st (s + 1) (k + 1) R C' ltac:(rewrite (fin_pc _ _ FA); cbn; lia)) as H2. cbv zeta in H2.
      assert (EM : Z.min (s + 1) (last_sem g (k + 1)) = s + 1) by (unfold last_sem; lia). rewrite EM in H2. specialize (H2 ltac:(lia)). replace (s + 1 - 1) with s in H2 by lia. replace (t + 2) with ((k + 1) * spb + 1) by lia. exact H2.
  - apply D_le with (u := t + 1 + 1); [|lia]. intros u Lu _. assert (HH : D st s (k * spb + (t - k * spb) + 1)) by (apply acq_step; auto; lia). apply HH; lia.
Qed.
Lemma D_down1 : forall st s u, reach st -> 0 <= s -> s + 1 < sweeps -> 1 <= u -> D st (s + 1) u -> D st s (u + 1).
Proof using G.
  intros st s u R L0 L1 Lu H. pose proof (steps_next g G s L0 L1). pose proof (steps_pos g G (s + 1) ltac:(lia)).
  assert (H2 : 5 <= st @ (TStep (s + 1) (Z.min u (steps (s + 1)) - 1))) by (apply H; lia).
  pose proof (D_step st s (Z.min u (steps (s + 1)) - 1) R L0 L1 ltac:(lia) ltac:(lia)) as H3. intros t Lt L. apply H3; lia.
Qed.
Lemma D_down : forall st s u s', reach st -> 0 <= s' <= s -> s < sweeps -> 1 <= u -> D st s u -> D st s' (u + (s - s')).
Proof using G.
  intros st s u s' R L Ls Lu H. replace s' with (s - (s - s')) by lia. replace (s - (s - (s - s'))) with (s - s') by lia. assert (Ld : 0 <= s - s' <= s) by lia. revert Ld. generalize (s - s'). clear s' L. intros d [Ld Ld2]. revert Ld2. pattern d. apply natlike_ind; [| |exact Ld].
  - intros _. rewrite Z.sub_0_r, Z.add_0_r. exact H.
  - intros x Lx IH L2. replace (u + Z.succ x) with (u + x + 1) by lia. apply D_down1; [exact R|lia|lia|lia|]. replace (s - Z.succ x + 1) with (s - x) by lia. apply IH. lia.
Qed.
(** ** Copies *)
Lemma D_copy : forall st u j, reach st -> 0 < sweeps -> 1 <= u -> D st 0 u -> 0 <= j < ntl g -> j * nb <= u * b -> fin st (TCopy j).
Proof using G.
  intros st u j R SW Lu H Lj L. pose proof (g_b g G) as HB. pose proof (g_c g G) as EC. pose proof (g_c1 g G). pose proof (sweeps_le g). pose proof (spb1 g G). pose proof (tpb1 g G) as T1. pose proof tpb_spb as TS. set (c := nb / b) in *.
  assert (JN : j * nb < size) by (apply (ntl_lt g G); lia). pose proof (steps_pos g G 0 ltac:(lia)) as SP.
  assert (J1 : j * c <= u) by (rewrite EC in L; nia).
  assert (J2 : j * c <= steps 0).
  { destruct (Z_lt_le_dec (steps 0) (j * c)) as [C|C]; [|exact C]. exfalso. assert (N : ~ (steps 0 < steps 0)) by lia. rewrite (steps_lt g G) in N. destruct (Z.eqb_spec 0 (size - 2)) as [E|E]; [|rewrite EC in JN; nia].
    assert (size = 2) by lia. assert (1 < j * c) by lia. rewrite EC in JN. nia. }
  set (t := Z.min u (steps 0) - 1). assert (LT : 0 <= t < steps 0) by (unfold t; lia). assert (Ht : 5 <= st @ (TStep 0 t)) by (apply H; unfold t; lia). assert (JT : j * c <= t + 1) by (unfold t; lia).
  pose proof (kb g G t ltac:(lia)) as (K0 & K1). pose proof (tb g G j ltac:(lia)) as (B0 & B1). set (k := t / spb) in *. set (kj := j / tpb) in *.
  assert (Q : forall x, x * tpb * c = x * spb) by (intros x; rewrite <- TS; ring).
  assert (CM : forall x y, x <= y -> x * c <= y * c) by (intros; nia).
  assert (J3 : (j - kj * tpb) * c < spb). { assert (j - kj * tpb + 1 <= tpb) by lia. specialize (CM _ _ H3). replace ((j - kj * tpb + 1) * c) with ((j - kj * tpb) * c + c) in CM by ring. lia. }
  destruct (Z.lt_trichotomy kj k) as [C|[C|C]].
  - assert (F : fin st (TStep 0 ((kj + 1) * spb - 1))) by (apply (step_chain st 0 t); [exact R|lia|nia|lia|lia]).
    assert (KS : (kj + 1) * spb <= k * spb) by nia.
    pose proof (acq_lower st 0 ((kj + 1) * spb - 1) R ltac:(lia) ltac:(nia) ltac:(rewrite (fin_pc _ _ F); pose proof (step_len 0 ((kj + 1) * spb - 1)); lia)) as AL. rewrite (kb_eq g G _ kj) in AL by lia.
    apply (acq0_copy st kj j R B0 B1 ltac:(lia)). fold c. lia.
  - pose proof (acq_lower st 0 t R ltac:(lia) LT ltac:(lia)) as AL. fold k in AL. apply (acq0_copy st kj j R B0 B1 ltac:(lia)). fold c. rewrite C in *. pose proof (Q k). replace ((j - k * tpb) * c) with (j * c - k * tpb * c) by ring. lia.
  - assert (EJ : kj * spb <= j * c). { rewrite <- (Q kj). apply CM. lia. }
    assert (KK : (k + 1) * spb <= kj * spb) by nia. assert (ET : t = (k + 1) * spb - 1) by lia. assert (EK : kj = k + 1) by nia. assert (EJ2 : j = kj * tpb) by (pose proof (Q kj); nia).
    assert (CV : cv 0 k). { split; [lia|]. split; [exact K0|]. unfold B2TDistModel.next_j. rewrite (nbb_t g G). rewrite <- EK, <- EJ2. lia. }
    rewrite ET in Ht. pose proof (col_needed st 0 k R CV ltac:(lia)) as NC. destruct (recvc_acq st 0 k R CV ltac:(lia)) as [_ FA].
    apply (acq0_copy st kj j R B0 B1 ltac:(lia)). replace ((j - kj * tpb) * (nb / b)) with 0 by (rewrite EJ2; ring).
    unfold sacq. clearbody kj. subst kj. assert (HX : facq (sid g 0 (k + 1)) (TAcq 0 (k + 1)) (st @ (TAcq 0 (k + 1))) <= zsum (fun x => facq (sid g 0 (k + 1)) x (st @ x)) ths).
    { apply (zsum_ge1 (fun x => facq (sid g 0 (k + 1)) x (st @ x))); [apply (in_threads g G); split; [lia|]; cbn; replace (k + 1 - 1) with k by lia; exact CV|intros; apply facq_nonneg]. }
    rewrite (fin_pc _ _ FA) in HX. cbn [facq dprog length] in HX. replace (Z.min 0 (last_sem g (k + 1))) with 0 in HX by (unfold last_sem; lia). rewrite Z.eqb_refl in HX. change (1 <=? Z.of_nat 1) with true in HX. cbn [andb] in HX. lia.
Qed.
End order.
