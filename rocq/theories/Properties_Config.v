(** * C37: configuration precedence *)
From Coq Require Import ZArith Bool List String Ascii Lia.
From Verif Require Import CInt ConfigModel.
Import ListNotations.
Open Scope string_scope.

Section Spec.
Context {V : Type} (parse : kind -> string -> option V).

(** What the user expects of one option: command line, else environment, else the given value. *)
Definition given_on_cmdline (cmd : command_line V) (e : entry) : Prop := cmd ("dlaf:" ++ e_cmd e) <> None.
Definition env_value (env : environment) (e : entry) : option string := env ("DLAF_" ++ e_env e).

Definition has_expected_value (env : environment) (cmd : command_line V) (e : entry) (old new : value V) : Prop :=
  match cmd ("dlaf:" ++ e_cmd e) with
  | Some (CNum v) => new = VNum v
  | Some _ => new = VBool true                       (* a flag *)
  | None =>
      match env_value env e with
      | Some txt =>
          if match e_kind e with KBool => true | _ => false end
          then exists b, parse_bool txt = Some b /\ new = VBool b
          else exists v, parse (e_kind e) txt = Some v /\ new = VNum v
      | None => new = old
      end
  end.

Definition invalid_env (env : environment) (e : entry) : Prop :=
  exists txt, env_value env e = Some txt /\ parse_env parse (e_kind e) txt = None.

(** The variables_map agrees with the option descriptions: values for valued options, presence for flags. *)
Definition cmd_typed (cmd : command_line V) (t : list entry) : Prop :=
  forall e, In e t ->
    match cmd ("dlaf:" ++ e_cmd e) with
    | None => True
    | Some CFlag => e_kind e = KBool
    | Some (CNum _) => e_kind e <> KBool
    | Some (CStr _) => False
    end.
Definition settings_typed (s : settings V) (t : list entry) : Prop :=
  forall e, In e t -> e_kind e = KBool -> exists b, s (e_field e) = VBool b.
End Spec.

(** ** Names *)
Definition well_named (t : list entry) : bool :=
  forallb (fun e => (not_contains "DLAF" (e_env e) && not_contains "dlaf" (e_cmd e))%bool) t.

Definition dash_to_underscore (c : ascii) : ascii := if Ascii.eqb c "-" then "_"%char else c.
Definition kind_eqb (a b : kind) : bool :=
  match a, b with
  | KBool, KBool | KSize, KSize | KSizeType, KSizeType | KDouble, KDouble | KString, KString => true
  | _, _ => false
  end.

Fixpoint nodup_b (l : list string) : bool :=
  match l with [] => true | x :: r => (negb (existsb (String.eqb x) r) && nodup_b r)%bool end.
Lemma nodup_b_ok : forall l, nodup_b l = true -> NoDup l.
Proof.
  induction l as [|x r IH]; intros H; constructor; cbn in H; apply andb_true_iff in H as [H1 H2]; auto.
  intros Hin. apply negb_true_iff in H1.
  assert (existsb (String.eqb x) r = true); [|congruence].
  apply existsb_exists. exists x. split; [auto | apply String.eqb_refl].
Qed.

(** Every option has its own environment variable (DLAF_ followed by the upper-cased field name), its own
    command line option (the field name with dashes) and a description with the right type; the names
    satisfy the assertions of the update function; debug parameters have no command line option. *)
Theorem C37_names : forall new,
  let t := (cfg_table new ++ tune_table)%list in
  NoDup (map e_field t) /\ NoDup (map e_env t) /\
  NoDup (filter (fun s => negb (s =? "")) (map e_cmd t)) /\
  well_named t = true /\
  (forall e, In e t -> e_env e = map_string upper (e_field e)) /\
  (forall e, In e t -> e_cmd e <> "" ->
     map_string dash_to_underscore (e_cmd e) = e_field e /\ In (e_cmd e, e_kind e) option_descriptions) /\
  (forall e, In e t -> e_cmd e = "" -> e_kind e = KBool /\ prefix "debug_dump_" (e_field e) = true).
Proof.
  intros new t. split; [|split; [|split; [|split; [|split; [|split]]]]].
  - apply nodup_b_ok. destruct new; vm_compute; reflexivity.
  - apply nodup_b_ok. destruct new; vm_compute; reflexivity.
  - apply nodup_b_ok. destruct new; vm_compute; reflexivity.
  - destruct new; vm_compute; reflexivity.
  - assert (H : forallb (fun e => e_env e =? map_string upper (e_field e)) t = true)
      by (destruct new; vm_compute; reflexivity).
    intros e He. rewrite forallb_forall in H. apply String.eqb_eq. auto.
  - assert (H : forallb (fun e => ((e_cmd e =? "") ||
       ((map_string dash_to_underscore (e_cmd e) =? e_field e) &&
        existsb (fun d => (fst d =? e_cmd e) && kind_eqb (snd d) (e_kind e)) option_descriptions))%bool) t = true)
      by (destruct new; vm_compute; reflexivity).
    intros e He N. rewrite forallb_forall in H. specialize (H e He).
    apply orb_true_iff in H as [H | H]. { apply String.eqb_eq in H. congruence. }
    apply andb_true_iff in H as [H1 H2]. apply String.eqb_eq in H1. split; [exact H1|].
    apply existsb_exists in H2 as ((n & k) & Hin & E). apply andb_true_iff in E as [E1 E2].
    cbn in E1, E2. apply String.eqb_eq in E1. subst n.
    assert (k = e_kind e) by (destruct k, (e_kind e); discriminate || reflexivity). subst k. exact Hin.
  - assert (H : forallb (fun e => (negb (e_cmd e =? "") || (kind_eqb (e_kind e) KBool && prefix "debug_dump_" (e_field e)))%bool) t = true)
      by (destruct new; vm_compute; reflexivity).
    intros e He N. rewrite forallb_forall in H. specialize (H e He). rewrite N in H. cbn in H.
    apply andb_true_iff in H as [H1 H2]. destruct (e_kind e); auto; discriminate.
Qed.

(** ** Precedence *)
Section Proofs.
Context {V : Type} (parse : kind -> string -> option V).

Lemma set_same : forall f (v : value V) s, set f v s f = v.
Proof. intros. unfold set. rewrite String.eqb_refl. reflexivity. Qed.
Lemma set_other : forall f f' (v : value V) s, f' <> f -> set f v s f' = s f'.
Proof. intros. unfold set. apply String.eqb_neq in H. rewrite H. reflexivity. Qed.

Lemma update_value_spec : forall env cmd e (s : settings V),
  (not_contains "DLAF" (e_env e) && not_contains "dlaf" (e_cmd e))%bool = true ->
  cmd_typed cmd [e] -> settings_typed s [e] ->
  match updateConfigurationValue parse env cmd e s with
  | Ok s' => has_expected_value parse env cmd e (s (e_field e)) (s' (e_field e)) /\
             forall f, f <> e_field e -> s' f = s f
  | Abort => invalid_env parse env e
  | UB => False
  end.
Proof.
  intros env cmd e s N C T. apply andb_true_iff in N as [N1 N2].
  unfold updateConfigurationValue. rewrite N1, N2. cbn [dlaf_assert bind].
  specialize (C e (or_introl eq_refl)). specialize (T e (or_introl eq_refl)).
  unfold has_expected_value, invalid_env, env_value, parse_env.
  destruct (env ("DLAF_" ++ e_env e)) as [txt|] eqn:EE.
  - destruct (e_kind e) eqn:K.
    + destruct (parse_bool txt) as [b|] eqn:PB; cbn [option_map bind].
      * rewrite set_same. split.
        -- rewrite set_same. destruct (cmd ("dlaf:" ++ e_cmd e)) as [[| v | t]|]; try contradiction.
           ++ rewrite orb_true_r. reflexivity.
           ++ exists b. rewrite orb_false_r. auto.
        -- intros f Hf. rewrite !set_other by auto. reflexivity.
      * exists txt. rewrite PB. auto.
    + destruct (parse KSize txt) as [v|] eqn:PB; cbn [option_map bind].
      * destruct (cmd ("dlaf:" ++ e_cmd e)) as [[| v' | t]|]; try contradiction; try discriminate.
        -- rewrite set_same. split; auto. intros f Hf. rewrite !set_other by auto. reflexivity.
        -- rewrite set_same. split; [eauto|]. intros f Hf. rewrite !set_other by auto. reflexivity.
      * exists txt. rewrite PB. auto.
    + destruct (parse KSizeType txt) as [v|] eqn:PB; cbn [option_map bind].
      * destruct (cmd ("dlaf:" ++ e_cmd e)) as [[| v' | t]|]; try contradiction; try discriminate.
        -- rewrite set_same. split; auto. intros f Hf. rewrite !set_other by auto. reflexivity.
        -- rewrite set_same. split; [eauto|]. intros f Hf. rewrite !set_other by auto. reflexivity.
      * exists txt. rewrite PB. auto.
    + destruct (parse KDouble txt) as [v|] eqn:PB; cbn [option_map bind].
      * destruct (cmd ("dlaf:" ++ e_cmd e)) as [[| v' | t]|]; try contradiction; try discriminate.
        -- rewrite set_same. split; auto. intros f Hf. rewrite !set_other by auto. reflexivity.
        -- rewrite set_same. split; [eauto|]. intros f Hf. rewrite !set_other by auto. reflexivity.
      * exists txt. rewrite PB. auto.
    + destruct (parse KString txt) as [v|] eqn:PB; cbn [option_map bind].
      * destruct (cmd ("dlaf:" ++ e_cmd e)) as [[| v' | t]|]; try contradiction; try discriminate.
        -- rewrite set_same. split; auto. intros f Hf. rewrite !set_other by auto. reflexivity.
        -- rewrite set_same. split; [eauto|]. intros f Hf. rewrite !set_other by auto. reflexivity.
      * exists txt. rewrite PB. auto.
  - cbn [bind]. destruct (e_kind e) eqn:K.
    + destruct (T eq_refl) as [b Eb]. rewrite Eb. split.
      * rewrite set_same. destruct (cmd ("dlaf:" ++ e_cmd e)) as [[| v | t]|]; try contradiction.
        -- rewrite orb_true_r. reflexivity.
        -- rewrite orb_false_r. reflexivity.
      * intros f Hf. rewrite set_other by auto. reflexivity.
    + destruct (cmd ("dlaf:" ++ e_cmd e)) as [[| v' | t]|]; try contradiction; try discriminate; auto.
      rewrite set_same. split; auto. intros f Hf. rewrite set_other by auto. reflexivity.
    + destruct (cmd ("dlaf:" ++ e_cmd e)) as [[| v' | t]|]; try contradiction; try discriminate; auto.
      rewrite set_same. split; auto. intros f Hf. rewrite set_other by auto. reflexivity.
    + destruct (cmd ("dlaf:" ++ e_cmd e)) as [[| v' | t]|]; try contradiction; try discriminate; auto.
      rewrite set_same. split; auto. intros f Hf. rewrite set_other by auto. reflexivity.
    + destruct (cmd ("dlaf:" ++ e_cmd e)) as [[| v' | t]|]; try contradiction; try discriminate; auto.
      rewrite set_same. split; auto. intros f Hf. rewrite set_other by auto. reflexivity.
Qed.

Lemma update_all_spec : forall env cmd t (s : settings V),
  NoDup (map e_field t) -> well_named t = true -> cmd_typed cmd t -> settings_typed s t ->
  match update_all parse env cmd t s with
  | Ok s' => (forall e, In e t -> has_expected_value parse env cmd e (s (e_field e)) (s' (e_field e))) /\
             (forall f, ~ In f (map e_field t) -> s' f = s f)
  | Abort => exists e, In e t /\ invalid_env parse env e
  | UB => False
  end.
Proof.
  induction t as [|e t IH]; intros s ND W C T; cbn [update_all].
  - split; [intros e []|auto].
  - cbn [well_named forallb] in W. apply andb_true_iff in W as [W1 W2].
    cbn [map] in ND. inversion_clear ND.
    pose proof (update_value_spec env cmd e s W1) as U.
    assert (C1 : cmd_typed cmd [e]). { intros x [<- | []]. apply C. left. auto. }
    assert (T1 : settings_typed s [e]). { intros x [<- | []] K. apply T; [left; auto | auto]. }
    specialize (U C1 T1). destruct (updateConfigurationValue parse env cmd e s) as [s1| |]; cbn [bind].
    2: { exists e. split; [left; auto | auto]. }
    2: { contradiction. }
    destruct U as [U1 U2].
    assert (C2 : cmd_typed cmd t). { intros x Hx. apply C. right. auto. }
    assert (T2 : settings_typed s1 t).
    { intros x Hx K. rewrite U2. { apply T; [right; auto | auto]. }
      intros E. apply H. rewrite <- E. apply in_map. exact Hx. }
    specialize (IH s1 H0 W2 C2 T2).
    destruct (update_all parse env cmd t s1) as [s'| |].
    + destruct IH as [I1 I2]. split.
      * intros x [<- | Hx].
        -- rewrite I2 by auto. exact U1.
        -- rewrite <- (U2 (e_field x)). { apply I1. exact Hx. }
           intros E. apply H. rewrite <- E. apply in_map. exact Hx.
      * intros f Hf. cbn [map In] in Hf. rewrite I2 by tauto. apply U2. intros ->. tauto.
    + destruct IH as (x & Hx & I1). exists x. split; [right; auto | auto].
    + contradiction.
Qed.
End Proofs.

Lemma nodup_app_l : forall (a b : list string), NoDup (a ++ b) -> NoDup a.
Proof.
  induction a as [|x a IH]; intros b H; constructor; cbn in H; inversion_clear H; eauto.
  intros Hin. apply H0. apply in_or_app. auto.
Qed.
Lemma nodup_app_r : forall (a b : list string), NoDup (a ++ b) -> NoDup b.
Proof. induction a as [|x a IH]; intros b H; [exact H|]. cbn in H. inversion_clear H. eauto. Qed.

Section Theorems.
Context {V : Type} (parse : kind -> string -> option V) (new_pika : bool) (default_cfg : settings V).

(** Initialisation: every configuration field and every tune parameter has the value given on the command
    line, else in its environment variable, else in the user configuration (resp. its previous value);
    fields without option are unchanged; the only way not to initialise is an invalid environment value
    (or a library already initialised / an invalid allocation layout). *)
Theorem C37_precedence : forall env cmd user_cfg (st : lib_state V),
  let t := (cfg_table new_pika ++ tune_table)%list in
  cmd_typed cmd t -> settings_typed user_cfg (cfg_table new_pika) -> settings_typed (l_tune st) tune_table ->
  match initialize parse new_pika env cmd user_cfg st with
  | Ok st' =>
      l_initialized st = false /\ l_initialized st' = true /\
      (forall e, In e (cfg_table new_pika) ->
         has_expected_value parse env cmd e (user_cfg (e_field e)) (l_cfg st' (e_field e))) /\
      (forall f, ~ In f (map e_field (cfg_table new_pika)) -> l_cfg st' f = user_cfg f) /\
      (forall e, In e tune_table ->
         has_expected_value parse env cmd e (l_tune st (e_field e)) (l_tune st' (e_field e))) /\
      (forall f, ~ In f (map e_field tune_table) -> l_tune st' f = l_tune st f) /\
      update_layout env cmd (l_layout st) = Ok (l_layout st')
  | Abort => l_initialized st = true \/ (exists e, In e t /\ invalid_env parse env e) \/
             update_layout env cmd (l_layout st) = Abort
  | UB => False
  end.
Proof.
  intros env cmd u st t C T1 T2.
  destruct (C37_names new_pika) as (N1 & _ & _ & N4 & _). fold t in N1, N4.
  unfold t in N1, N4. rewrite map_app in N1. unfold well_named in N4. rewrite forallb_app in N4.
  apply andb_true_iff in N4 as [W1 W2].
  assert (ND : NoDup (map e_field (cfg_table new_pika)) /\ NoDup (map e_field tune_table)).
  { split; [exact (nodup_app_l _ _ N1) | exact (nodup_app_r _ _ N1)]. }
  destruct ND as [D1 D2].
  assert (C1 : cmd_typed cmd (cfg_table new_pika)) by (intros e He; apply C; apply in_or_app; auto).
  assert (C2 : cmd_typed cmd tune_table) by (intros e He; apply C; apply in_or_app; auto).
  pose proof (update_all_spec parse env cmd _ u D1 W1 C1 T1) as U1.
  pose proof (update_all_spec parse env cmd _ (l_tune st) D2 W2 C2 T2) as U2.
  unfold initialize. destruct (update_all parse env cmd (cfg_table new_pika) u) as [cfg| |]; cbn [bind].
  2: { right. left. destruct U1 as (e & He & I). exists e. split; [apply in_or_app; auto | auto]. }
  2: { contradiction. }
  destruct (update_layout env cmd (l_layout st)) as [lay| |] eqn:UL; cbn [bind].
  2: { right. right. reflexivity. }
  2: { unfold update_layout, allocation_layout_from in UL.
       destruct (cmd _) as [[| |s]|]; cbn [bind] in UL; try discriminate;
       repeat match type of UL with context [if ?b then _ else _] => destruct b; try discriminate end. }
  destruct (update_all parse env cmd tune_table (l_tune st)) as [tune| |]; cbn [bind].
  2: { right. left. destruct U2 as (e & He & I). exists e. split; [apply in_or_app; auto | auto]. }
  2: { contradiction. }
  destruct (l_initialized st) eqn:I; cbn [negb dlaf_assert bind]; [left; reflexivity|].
  cbn [l_initialized l_cfg l_tune]. split; [reflexivity|]. split; [reflexivity|].
  split; [apply U1|]. split; [apply U1|]. split; [apply U2|]. split; [apply U2 | reflexivity].
Qed.

(** Values of different options never influence each other: two initialisations that agree on one
    option's sources give that option the same value, whatever the rest. *)
Theorem C37_independent : forall e env1 env2 cmd1 cmd2 u1 u2 (st1 st2 st1' st2' : lib_state V),
  In e (cfg_table new_pika) ->
  env_value env1 e = env_value env2 e -> cmd1 ("dlaf:" ++ e_cmd e) = cmd2 ("dlaf:" ++ e_cmd e) ->
  u1 (e_field e) = u2 (e_field e) ->
  let t := (cfg_table new_pika ++ tune_table)%list in
  cmd_typed cmd1 t -> cmd_typed cmd2 t -> settings_typed u1 (cfg_table new_pika) -> settings_typed u2 (cfg_table new_pika) ->
  settings_typed (l_tune st1) tune_table -> settings_typed (l_tune st2) tune_table ->
  initialize parse new_pika env1 cmd1 u1 st1 = Ok st1' -> initialize parse new_pika env2 cmd2 u2 st2 = Ok st2' ->
  l_cfg st1' (e_field e) = l_cfg st2' (e_field e).
Proof.
  intros e env1 env2 cmd1 cmd2 u1 u2 st1 st2 st1' st2' He Hv Hc Hu t C1 C2 T1 T2 T3 T4 E1 E2.
  pose proof (C37_precedence env1 cmd1 u1 st1 C1 T1 T3) as P1. rewrite E1 in P1.
  pose proof (C37_precedence env2 cmd2 u2 st2 C2 T2 T4) as P2. rewrite E2 in P2.
  destruct P1 as (_ & _ & P1 & _). destruct P2 as (_ & _ & P2 & _).
  specialize (P1 e He). specialize (P2 e He). unfold has_expected_value in *.
  rewrite Hc, Hv, Hu in P1.
  destruct (cmd2 ("dlaf:" ++ e_cmd e)) as [[| v | s]|]; try congruence.
  destruct (env_value env2 e) as [txt|]; [|congruence].
  destruct (e_kind e).
  - destruct P1 as (b & A & B), P2 as (b' & A' & B'). congruence.
  - destruct P1 as (b & A & B), P2 as (b' & A' & B'). congruence.
  - destruct P1 as (b & A & B), P2 as (b' & A' & B'). congruence.
  - destruct P1 as (b & A & B), P2 as (b' & A' & B'). congruence.
  - destruct P1 as (b & A & B), P2 as (b' & A' & B'). congruence.
Qed.

(** The configuration after initialisation does not depend on the history of the library. *)
Theorem C37_reinitialise_configuration : forall env cmd u (st1 st2 st1' st2' : lib_state V),
  initialize parse new_pika env cmd u st1 = Ok st1' -> initialize parse new_pika env cmd u st2 = Ok st2' ->
  l_cfg st1' = l_cfg st2'.
Proof.
  unfold initialize. intros.
  destruct (update_all parse env cmd (cfg_table new_pika) u); cbn [bind] in *; try discriminate.
  destruct (update_layout env cmd (l_layout st1)); cbn [bind] in *; try discriminate.
  destruct (update_layout env cmd (l_layout st2)); cbn [bind] in *; try discriminate.
  destruct (update_all parse env cmd tune_table (l_tune st1)); cbn [bind] in *; try discriminate.
  destruct (update_all parse env cmd tune_table (l_tune st2)); cbn [bind] in *; try discriminate.
  destruct (l_initialized st1), (l_initialized st2); cbn in *; try discriminate.
  inversion H; inversion H0. reflexivity.
Qed.

(** initialize and finalize must alternate. *)
Theorem C37_alternation : forall env cmd u (st st' : lib_state V),
  (initialize parse new_pika env cmd u st = Ok st' ->
     (forall env2 cmd2 u2, initialize parse new_pika env2 cmd2 u2 st' = Abort \/
                           initialize parse new_pika env2 cmd2 u2 st' = UB) /\
     exists st2, finalize default_cfg st' = Ok st2 /\ l_cfg st2 = default_cfg /\ finalize default_cfg st2 = Abort).
Proof.
  intros env cmd u st st' H.
  assert (I : l_initialized st' = true).
  { unfold initialize in H.
    repeat match type of H with context [bind ?m _] => destruct m; cbn [bind] in H; try discriminate end.
    inversion H. reflexivity. }
  split.
  - intros. unfold initialize. rewrite I.
    destruct (update_all parse env2 cmd2 (cfg_table new_pika) u2); cbn [bind]; auto.
    destruct (update_layout env2 cmd2 (l_layout st')); cbn [bind]; auto.
    destruct (update_all parse env2 cmd2 tune_table (l_tune st')); cbn [bind]; auto.
  - unfold finalize. rewrite I. cbn. eexists. split; [reflexivity|]. split; reflexivity.
Qed.
End Theorems.

(** The allocation layout option: command line, else environment, else unchanged. *)
Theorem C37_layout : forall (V : Type) env (cmd : command_line V) l,
  (forall s, cmd "dlaf:default_allocation_layout" = Some (CStr s) -> s <> "" ->
     update_layout env cmd l = allocation_layout_from s) /\
  (cmd "dlaf:default_allocation_layout" = None ->
     (forall s, env "DLAF_DEFAULT_ALLOCATION_LAYOUT" = Some s -> s <> "" ->
        update_layout env cmd l = allocation_layout_from s) /\
     (env "DLAF_DEFAULT_ALLOCATION_LAYOUT" = None -> update_layout env cmd l = Ok l)) /\
  (allocation_layout_from "ColMajor" = Ok LColMajor /\ allocation_layout_from "Blocks" = Ok LBlocks /\
   allocation_layout_from "TILES" = Ok LTiles /\ allocation_layout_from "rows" = Abort).
Proof.
  intros. unfold update_layout. split; [|split; [|vm_compute; auto]].
  - intros s E N. rewrite E. cbn [bind]. apply String.eqb_neq in N. rewrite N. reflexivity.
  - intros E. rewrite E. split.
    + intros s E2 N. rewrite E2. cbn [bind]. apply String.eqb_neq in N. rewrite N. reflexivity.
    + intros E2. rewrite E2. reflexivity.
Qed.

(** ** Refuted parts *)
Definition no_env : environment := fun _ => None.
Definition no_cmd : command_line Z := fun _ => None.
Definition min_band_200 : command_line Z :=
  fun n => if n =? "dlaf:eigensolver-min-band" then Some (CNum 200%Z) else None.
Definition parse_none : kind -> string -> option Z := fun _ _ => None.
Definition cfg0 : settings Z := fun f => if f =? "print_config" then VBool false else VNum 0%Z.
Definition tune0 : settings Z := fun f =>
  if prefix "debug_dump_" f then VBool false else if f =? "eigensolver_min_band" then VNum 100%Z else VNum 1%Z.
Definition fresh_lib : lib_state Z := LibState false cfg0 tune0 LColMajor.

(** Tune parameters set on the command line survive finalize: a later initialisation without that option
    does not start from the defaults. *)
Theorem C37_tune_not_reset_refuted : exists st1 st2 st3,
  initialize parse_none true no_env min_band_200 cfg0 fresh_lib = Ok st1 /\
  finalize cfg0 st1 = Ok st2 /\
  initialize parse_none true no_env no_cmd cfg0 st2 = Ok st3 /\
  l_tune fresh_lib "eigensolver_min_band" = VNum 100%Z /\
  l_tune st3 "eigensolver_min_band" = VNum 200%Z.
Proof.
  do 3 eexists. split; [cbn; reflexivity|]. split; [cbn; reflexivity|]. split; [cbn; reflexivity|].
  split; vm_compute; reflexivity.
Qed.

(** The device memory pool is created from the wrong options: the next-block size option and both device
    coalescing ratios have no effect, and the host ratios influence the device pool. *)
Theorem C37_device_pool_refuted :
  (forall (V : Type) (cfg cfg' : settings V),
     (forall f, f <> "umpire_device_memory_pool_next_block_bytes" ->
                f <> "umpire_device_memory_pool_coalescing_free_ratio" ->
                f <> "umpire_device_memory_pool_coalescing_reallocation_ratio" -> cfg f = cfg' f) ->
     pool_values device_pool_fields cfg = pool_values device_pool_fields cfg') /\
  exists cfg cfg' : settings Z,
     (forall f, f <> "umpire_host_memory_pool_coalescing_free_ratio" -> cfg f = cfg' f) /\
     pool_values device_pool_fields cfg <> pool_values device_pool_fields cfg'.
Proof.
  split.
  - intros V cfg cfg' H. unfold pool_values, device_pool_fields. 
    rewrite !H by discriminate. reflexivity.
  - exists (fun _ => VNum 0%Z), (set "umpire_host_memory_pool_coalescing_free_ratio" (VNum 1%Z) (fun _ => VNum 0%Z)).
    split.
    + intros f Hf. rewrite set_other by auto. reflexivity.
    + vm_compute. discriminate.
Qed.

(** The host pool uses its own five options. *)
Theorem C37_host_pool : forall (V : Type) (cfg : settings V),
  pool_values host_pool_fields cfg =
  (cfg "umpire_host_memory_pool_initial_block_bytes", cfg "umpire_host_memory_pool_next_block_bytes",
   cfg "umpire_host_memory_pool_alignment_bytes", cfg "umpire_host_memory_pool_coalescing_free_ratio",
   cfg "umpire_host_memory_pool_coalescing_reallocation_ratio").
Proof. reflexivity. Qed.

(** --dlaf:no-mpi-pool is accepted on the command line but no configuration field reads it; four of the
    documented environment variables of the debug parameters are not the ones the code reads. *)
Theorem C37_documented_names_refuted :
  In ("no-mpi-pool", KBool) option_descriptions /\
  (forall new e, In e (cfg_table new ++ tune_table)%list -> e_cmd e <> "no-mpi-pool") /\
  exists f doc, In (f, doc) documented_debug_env /\
    forall e, In e tune_table -> e_field e = f -> "DLAF_" ++ e_env e <> doc.
Proof.
  split; [|split].
  - vm_compute. tauto.
  - intros new e He E. assert (H : forallb (fun e => negb (e_cmd e =? "no-mpi-pool")) (cfg_table new ++ tune_table)%list = true)
      by (destruct new; vm_compute; reflexivity).
    rewrite forallb_forall in H. apply H in He. rewrite E in He. discriminate.
  - exists "debug_dump_cholesky_factorization_data", "DLAF_DEBUG_CHOLESKY_FACTORIZATION_DATA".
    split; [vm_compute; tauto|].
    assert (H : forallb (fun e => negb ((e_field e =? "debug_dump_cholesky_factorization_data") &&
      ("DLAF_" ++ e_env e =? "DLAF_DEBUG_CHOLESKY_FACTORIZATION_DATA"))) tune_table = true) by (vm_compute; reflexivity).
    intros e He E1 E2. rewrite forallb_forall in H. apply H in He. rewrite E1, E2 in He. discriminate.
Qed.

(** Concrete case: environment and command line both set. *)
Example C37_example : exists st,
  initialize (fun _ s => if s =? "7" then Some 7%Z else None) true
    (fun n => if n =? "DLAF_TFACTOR_NUM_STREAMS" then Some "7" else if n =? "DLAF_EIGENSOLVER_MIN_BAND" then Some "7"
              else if n =? "DLAF_PRINT_CONFIG" then Some "yes" else None)
    min_band_200 cfg0 fresh_lib = Ok st /\
  l_tune st "eigensolver_min_band" = VNum 200%Z /\ l_tune st "tfactor_num_streams" = VNum 7%Z /\
  l_tune st "tfactor_num_threads" = VNum 1%Z /\ l_cfg st "print_config" = VBool true /\
  settings_typed cfg0 (cfg_table true) /\ settings_typed tune0 tune_table /\
  cmd_typed min_band_200 (cfg_table true ++ tune_table).
Proof.
  eexists. split; [cbn; reflexivity|]. split; [vm_compute; reflexivity|]. split; [vm_compute; reflexivity|].
  split; [vm_compute; reflexivity|]. split; [vm_compute; reflexivity|]. split; [|split].
  - assert (H : forallb (fun e => negb (kind_eqb (e_kind e) KBool) || (e_field e =? "print_config"))%bool (cfg_table true) = true)
      by (vm_compute; reflexivity).
    intros e He K. rewrite forallb_forall in H. specialize (H e He). rewrite K in H. cbn in H.
    apply String.eqb_eq in H. rewrite H. exists false. reflexivity.
  - assert (H : forallb (fun e => negb (kind_eqb (e_kind e) KBool) || prefix "debug_dump_" (e_field e))%bool tune_table = true)
      by (vm_compute; reflexivity).
    intros e He K. rewrite forallb_forall in H. specialize (H e He). rewrite K in H. cbn in H.
    exists false. unfold tune0. rewrite H. reflexivity.
  - assert (H : forallb (fun e => match min_band_200 ("dlaf:" ++ e_cmd e) with None => true
        | Some (CNum _) => negb (kind_eqb (e_kind e) KBool) | _ => false end) (cfg_table true ++ tune_table)%list = true)
      by (vm_compute; reflexivity).
    intros e He. rewrite forallb_forall in H. specialize (H e He).
    destruct (min_band_200 _) as [[| |]|]; try discriminate; auto.
    intros K. rewrite K in H. discriminate.
Qed.

(** ** Assumptions *)
Print Assumptions C37_names.
Print Assumptions C37_precedence.
Print Assumptions C37_independent.
Print Assumptions C37_reinitialise_configuration.
Print Assumptions C37_alternation.
Print Assumptions C37_layout.
Print Assumptions C37_tune_not_reset_refuted.
Print Assumptions C37_device_pool_refuted.
Print Assumptions C37_host_pool.
Print Assumptions C37_documented_names_refuted.
