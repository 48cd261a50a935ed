(** * Configuration and tune parameters: src/init.cpp.

    A configuration (or the tune parameters) is a function from field names to values.  Environment:
    [env name] is getenv(name).  Command line: [cmd name] is the value stored for option --name in the
    variables_map (for flags: presence).  The text-to-number conversions std::stoull / stoll / stod are
    the parameter [parse] ([None]: exception or invalid, the program terminates). *)
From Coq Require Import ZArith Bool List String Ascii.
From Verif Require Import CInt.
Import ListNotations.
Open Scope string_scope.

(** the C++ type of the field *)
Inductive kind := KBool | KSize | KSizeType | KDouble | KString.

(** A call updateConfigurationValue(vm, <field>, <env>, <cmd>). *)
Record entry := Entry { e_field : string; e_env : string; e_cmd : string; e_kind : kind }.

(** updateConfiguration, init.cpp:252-283, the calls on [cfg] *)
Definition cfg_first : list entry := [
  Entry "print_config" "PRINT_CONFIG" "print-config" KBool  (* init.cpp:254 *)].
Definition cfg_new_pika : list entry := [
  Entry "num_np_gpu_streams" "NUM_NP_GPU_STREAMS" "num-np-gpu-streams" KSize;  (* init.cpp:256 *)
  Entry "num_hp_gpu_streams" "NUM_HP_GPU_STREAMS" "num-hp-gpu-streams" KSize  (* init.cpp:257 *)].
Definition cfg_old_pika : list entry := [
  Entry "num_np_gpu_streams_per_thread" "NUM_NP_GPU_STREAMS_PER_THREAD" "num-np-gpu-streams-per-thread" KSize;  (* init.cpp:261 *)
  Entry "num_hp_gpu_streams_per_thread" "NUM_HP_GPU_STREAMS_PER_THREAD" "num-hp-gpu-streams-per-thread" KSize  (* init.cpp:262 *)].
Definition cfg_rest : list entry := [
  Entry "umpire_host_memory_pool_initial_block_bytes" "UMPIRE_HOST_MEMORY_POOL_INITIAL_BLOCK_BYTES" "umpire-host-memory-pool-initial-block-bytes" KSize;  (* init.cpp:266 *)
  Entry "umpire_host_memory_pool_next_block_bytes" "UMPIRE_HOST_MEMORY_POOL_NEXT_BLOCK_BYTES" "umpire-host-memory-pool-next-block-bytes" KSize;  (* init.cpp:267 *)
  Entry "umpire_host_memory_pool_alignment_bytes" "UMPIRE_HOST_MEMORY_POOL_ALIGNMENT_BYTES" "umpire-host-memory-pool-alignment-bytes" KSize;  (* init.cpp:268 *)
  Entry "umpire_host_memory_pool_coalescing_free_ratio" "UMPIRE_HOST_MEMORY_POOL_COALESCING_FREE_RATIO" "umpire-host-memory-pool-coalescing-free-ratio" KDouble;  (* init.cpp:269 *)
  Entry "umpire_host_memory_pool_coalescing_reallocation_ratio" "UMPIRE_HOST_MEMORY_POOL_COALESCING_REALLOCATION_RATIO" "umpire-host-memory-pool-coalescing-reallocation-ratio" KDouble;  (* init.cpp:270 *)
  Entry "umpire_device_memory_pool_initial_block_bytes" "UMPIRE_DEVICE_MEMORY_POOL_INITIAL_BLOCK_BYTES" "umpire-device-memory-pool-initial-block-bytes" KSize;  (* init.cpp:271 *)
  Entry "umpire_device_memory_pool_next_block_bytes" "UMPIRE_DEVICE_MEMORY_POOL_NEXT_BLOCK_BYTES" "umpire-device-memory-pool-next-block-bytes" KSize;  (* init.cpp:272 *)
  Entry "umpire_device_memory_pool_alignment_bytes" "UMPIRE_DEVICE_MEMORY_POOL_ALIGNMENT_BYTES" "umpire-device-memory-pool-alignment-bytes" KSize;  (* init.cpp:273 *)
  Entry "umpire_device_memory_pool_coalescing_free_ratio" "UMPIRE_DEVICE_MEMORY_POOL_COALESCING_FREE_RATIO" "umpire-device-memory-pool-coalescing-free-ratio" KDouble;  (* init.cpp:274 *)
  Entry "umpire_device_memory_pool_coalescing_reallocation_ratio" "UMPIRE_DEVICE_MEMORY_POOL_COALESCING_REALLOCATION_RATIO" "umpire-device-memory-pool-coalescing-reallocation-ratio" KDouble;  (* init.cpp:275 *)
  Entry "num_gpu_blas_handles" "NUM_GPU_BLAS_HANDLES" "num-gpu-blas-handles" KSize;  (* init.cpp:276 *)
  Entry "num_gpu_lapack_handles" "NUM_GPU_LAPACK_HANDLES" "num-gpu-lapack-handles" KSize  (* init.cpp:277 *)].
(** [new]: PIKA_VERSION_FULL >= 0x001F00 *)
Definition cfg_table (new : bool) : list entry :=
  (cfg_first ++ (if new then cfg_new_pika else cfg_old_pika) ++ cfg_rest)%list.

(** updateConfiguration, init.cpp:290-315, the calls on the tune parameters
    (default_allocation_layout, lines 285-289, is treated separately below) *)
Definition tune_table : list entry := [
  Entry "tfactor_num_threads" "TFACTOR_NUM_THREADS" "tfactor-num-threads" KSize;  (* init.cpp:290 *)
  Entry "tfactor_num_streams" "TFACTOR_NUM_STREAMS" "tfactor-num-streams" KSize;  (* init.cpp:291 *)
  Entry "tfactor_barrier_busy_wait_us" "TFACTOR_BARRIER_BUSY_WAIT_US" "tfactor-barrier-busy-wait-us" KSize;  (* init.cpp:292 *)
  Entry "red2band_panel_num_threads" "RED2BAND_PANEL_NUM_THREADS" "red2band-panel-num-threads" KSize;  (* init.cpp:293 *)
  Entry "red2band_barrier_busy_wait_us" "RED2BAND_BARRIER_BUSY_WAIT_US" "red2band-barrier-busy-wait-us" KSize;  (* init.cpp:294 *)
  Entry "eigensolver_min_band" "EIGENSOLVER_MIN_BAND" "eigensolver-min-band" KSizeType;  (* init.cpp:295 *)
  Entry "band_to_tridiag_1d_block_size_base" "BAND_TO_TRIDIAG_1D_BLOCK_SIZE_BASE" "band-to-tridiag-1d-block-size-base" KSizeType;  (* init.cpp:296 *)
  Entry "debug_dump_cholesky_factorization_data" "DEBUG_DUMP_CHOLESKY_FACTORIZATION_DATA" "" KBool;  (* init.cpp:298 *)
  Entry "debug_dump_generalized_eigensolver_data" "DEBUG_DUMP_GENERALIZED_EIGENSOLVER_DATA" "" KBool;  (* init.cpp:299 *)
  Entry "debug_dump_generalized_to_standard_data" "DEBUG_DUMP_GENERALIZED_TO_STANDARD_DATA" "" KBool;  (* init.cpp:300 *)
  Entry "debug_dump_eigensolver_data" "DEBUG_DUMP_EIGENSOLVER_DATA" "" KBool;  (* init.cpp:301 *)
  Entry "debug_dump_inverse_from_cholesky_factor_data" "DEBUG_DUMP_INVERSE_FROM_CHOLESKY_FACTOR_DATA" "" KBool;  (* init.cpp:302 *)
  Entry "debug_dump_reduction_to_band_data" "DEBUG_DUMP_REDUCTION_TO_BAND_DATA" "" KBool;  (* init.cpp:303 *)
  Entry "debug_dump_band_to_tridiagonal_data" "DEBUG_DUMP_BAND_TO_TRIDIAGONAL_DATA" "" KBool;  (* init.cpp:304 *)
  Entry "debug_dump_triangular_inverse_data" "DEBUG_DUMP_TRIANGULAR_INVERSE_DATA" "" KBool;  (* init.cpp:305 *)
  Entry "debug_dump_tridiag_solver_data" "DEBUG_DUMP_TRIDIAG_SOLVER_DATA" "" KBool;  (* init.cpp:306 *)
  Entry "tridiag_rank1_num_threads" "TRIDIAG_RANK1_NUM_THREADS" "tridiag-rank1-num-threads" KSize;  (* init.cpp:308 *)
  Entry "tridiag_rank1_barrier_busy_wait_us" "TRIDIAG_RANK1_BARRIER_BUSY_WAIT_US" "tridiag-rank1-barrier-busy-wait-us" KSize;  (* init.cpp:310 *)
  Entry "bt_band_to_tridiag_hh_apply_group_size" "BT_BAND_TO_TRIDIAG_HH_APPLY_GROUP_SIZE" "bt-band-to-tridiag-hh-apply-group-size" KSizeType;  (* init.cpp:312 *)
  Entry "communicator_grid_num_pipelines" "COMMUNICATOR_GRID_NUM_PIPELINES" "communicator-grid-num-pipelines" KSize  (* init.cpp:314 *)].

(** getOptionsDescription, init.cpp:325-363: option names (without "dlaf:") and value types *)
Definition option_descriptions : list (string * kind) := [
  ("help", KBool);  (* init.cpp:328 *)
  ("print-config", KBool);  (* init.cpp:329 *)
  ("num-np-gpu-streams", KSize);  (* init.cpp:330 *)
  ("num-hp-gpu-streams", KSize);  (* init.cpp:331 *)
  ("num-np-gpu-streams-per-thread", KSize);  (* init.cpp:332 *)
  ("num-hp-gpu-streams-per-thread", KSize);  (* init.cpp:333 *)
  ("umpire-host-memory-pool-initial-block-bytes", KSize);  (* init.cpp:334 *)
  ("umpire-host-memory-pool-next-block-bytes", KSize);  (* init.cpp:335 *)
  ("umpire-host-memory-pool-alignment-bytes", KSize);  (* init.cpp:336 *)
  ("umpire-host-memory-pool-coalescing-free-ratio", KDouble);  (* init.cpp:337 *)
  ("umpire-host-memory-pool-coalescing-reallocation-ratio", KDouble);  (* init.cpp:338 *)
  ("umpire-device-memory-pool-initial-block-bytes", KSize);  (* init.cpp:339 *)
  ("umpire-device-memory-pool-next-block-bytes", KSize);  (* init.cpp:340 *)
  ("umpire-device-memory-pool-alignment-bytes", KSize);  (* init.cpp:341 *)
  ("umpire-device-memory-pool-coalescing-free-ratio", KDouble);  (* init.cpp:342 *)
  ("umpire-device-memory-pool-coalescing-reallocation-ratio", KDouble);  (* init.cpp:343 *)
  ("num-gpu-blas-handles", KSize);  (* init.cpp:344 *)
  ("num-gpu-lapack-handles", KSize);  (* init.cpp:345 *)
  ("no-mpi-pool", KBool);  (* init.cpp:346 *)
  ("default_allocation_layout", KString);  (* init.cpp:349 *)
  ("tfactor-num-threads", KSize);  (* init.cpp:350 *)
  ("tfactor-num-streams", KSize);  (* init.cpp:351 *)
  ("tfactor-barrier-busy-wait-us", KSize);  (* init.cpp:352 *)
  ("red2band-panel-num-threads", KSize);  (* init.cpp:353 *)
  ("red2band-barrier-busy-wait-us", KSize);  (* init.cpp:354 *)
  ("eigensolver-min-band", KSizeType);  (* init.cpp:355 *)
  ("band-to-tridiag-1d-block-size-base", KSizeType);  (* init.cpp:356 *)
  ("tridiag-rank1-num-threads", KSize);  (* init.cpp:357 *)
  ("tridiag-rank1-barrier-busy-wait-us", KSize);  (* init.cpp:358 *)
  ("bt-band-to-tridiag-hh-apply-group-size", KSizeType);  (* init.cpp:359 *)
  ("communicator-grid-num-pipelines", KSize)  (* init.cpp:360 *)].

(** The environment variables documented for the debug parameters in include/dlaf/tune.h *)
Definition documented_debug_env : list (string * string) := [
  ("debug_dump_cholesky_factorization_data", "DLAF_DEBUG_CHOLESKY_FACTORIZATION_DATA");  (* tune.h:33 *)
  ("debug_dump_generalized_to_standard_data", "DLAF_DEBUG_GENERALIZED_TO_STANDARD_DATA");  (* tune.h:37 *)
  ("debug_dump_generalized_eigensolver_data", "DLAF_DEBUG_GENERALIZED_EIGENSOLVER_DATA");  (* tune.h:41 *)
  ("debug_dump_eigensolver_data", "DLAF_DEBUG_DUMP_EIGENSOLVER_DATA");  (* tune.h:45 *)
  ("debug_dump_reduction_to_band_data", "DLAF_DEBUG_DUMP_EIGENSOLVER_DATA");  (* tune.h:49 *)
  ("debug_dump_band_to_tridiagonal_data", "DLAF_DEBUG_DUMP_BAND_TO_TRIDIAGONAL_DATA");  (* tune.h:53 *)
  ("debug_dump_inverse_from_cholesky_factor_data", "DLAF_DEBUG_DUMP_INVERSE_FROM_CHOLESKY_FACTOR_DATA");  (* tune.h:57 *)
  ("debug_dump_triangular_inverse_data", "DLAF_DEBUG_DUMP_TRIANGULAR_INVERSE_DATA");  (* tune.h:61 *)
  ("debug_dump_tridiag_solver_data", "DLAF_DEBUG_DUMP_TRIDIAG_SOLVER_DATA")  (* tune.h:65 *)].

(** ** Values *)
Definition upper (c : ascii) : ascii :=
  let n := nat_of_ascii c in
  if (Nat.leb 97 n && Nat.leb n 122)%bool then ascii_of_nat (n - 32) else c.
Definition lower (c : ascii) : ascii :=
  let n := nat_of_ascii c in
  if (Nat.leb 65 n && Nat.leb n 90)%bool then ascii_of_nat (n + 32) else c.
Fixpoint map_string (f : ascii -> ascii) (s : string) : string :=
  match s with EmptyString => EmptyString | String c r => String (f c) (map_string f r) end.

(** parseFromString<bool>, init.cpp:176-193 *)
Definition is_one_of_ignore_case (value : string) (values : list string) : bool :=
  existsb (String.eqb (map_string upper value)) values.
Definition parse_bool (s : string) : option bool :=
  if is_one_of_ignore_case s ["ON"; "TRUE"; "YES"; "1"] then Some true
  else if is_one_of_ignore_case s ["OFF"; "FALSE"; "NO"; "0"] then Some false
  else None.

Inductive layout := LColMajor | LBlocks | LTiles.
(** allocation_layout_from, include/dlaf/matrix/allocation_io.h:21-31 (an invalid value terminates) *)
Definition allocation_layout_from (s : string) : res layout :=
  let l := map_string lower s in
  if l =? "colmajor" then Ok LColMajor
  else if l =? "blocks" then Ok LBlocks
  else if l =? "tiles" then Ok LTiles
  else Abort.

Section Config.
(** Non-boolean values and their textual conversion. *)
Context {V : Type} (parse : kind -> string -> option V).

Inductive value := VBool (b : bool) | VNum (v : V).
Definition settings := string -> value.
Definition set (f : string) (v : value) (s : settings) : settings :=
  fun f' => if f' =? f then v else s f'.

Definition environment := string -> option string.
(** What the variables_map holds for an option. *)
Inductive cmd_value := CFlag | CNum (v : V) | CStr (s : string).
Definition command_line := string -> option cmd_value.

(** parseFromString<T>::call, init.cpp:150-193 *)
Definition parse_env (k : kind) (s : string) : option value :=
  match k with
  | KBool => option_map VBool (parse_bool s)
  | _ => option_map VNum (parse k s)
  end.

(** std::string::find(pat) == npos *)
Definition not_contains (pat s : string) : bool :=
  match index 0 pat s with None => true | Some _ => false end.

(** updateConfigurationValue, init.cpp:202-230 *)
Definition updateConfigurationValue (env : environment) (cmd : command_line) (e : entry) (s : settings)
  : res settings :=
  do dlaf_assert (not_contains "DLAF" (e_env e)) ;;;
  do dlaf_assert (not_contains "dlaf" (e_cmd e)) ;;;
  s1 <- match env ("DLAF_" ++ e_env e) with
        | Some txt => match parse_env (e_kind e) txt with
                      | Some v => Ok (set (e_field e) v s)
                      | None => Abort
                      end
        | None => Ok s
        end ;;
  match e_kind e with
  | KBool =>
      let given := match cmd ("dlaf:" ++ e_cmd e) with Some _ => true | None => false end in
      match s1 (e_field e) with
      | VBool b => Ok (set (e_field e) (VBool (b || given)) s1)
      | VNum _ => UB
      end
  | _ =>
      match cmd ("dlaf:" ++ e_cmd e) with
      | Some (CNum v) => Ok (set (e_field e) (VNum v) s1)
      | Some _ => Abort (* variables_map::as<T>: bad_any_cast *)
      | None => Ok s1
      end
  end.

Fixpoint update_all (env : environment) (cmd : command_line) (t : list entry) (s : settings) : res settings :=
  match t with
  | [] => Ok s
  | e :: r => s' <- updateConfigurationValue env cmd e s ;; update_all env cmd r s'
  end.

(** init.cpp:285-289 *)
Definition update_layout (env : environment) (cmd : command_line) (l : layout) : res layout :=
  let s0 := match env "DLAF_DEFAULT_ALLOCATION_LAYOUT" with Some t => t | None => "" end in
  s <- match cmd "dlaf:default_allocation_layout" with
       | Some (CStr t) => Ok t
       | Some _ => Abort
       | None => Ok s0
       end ;;
  if s =? "" then Ok l else allocation_layout_from s.

(** ** initialize / finalize *)
Record lib_state := LibState {
  l_initialized : bool;   (* internal::initialized() *)
  l_cfg : settings;       (* internal::getConfiguration() *)
  l_tune : settings;      (* getTuneParameters() *)
  l_layout : layout }.    (* getTuneParameters().default_allocation_layout *)

Context (new_pika : bool) (default_cfg : settings).

(** initialize(vm, user_cfg), init.cpp:366-406 (printing, MPI polling and --dlaf:help omitted) *)
Definition initialize (env : environment) (cmd : command_line) (user_cfg : settings) (st : lib_state)
  : res lib_state :=
  cfg <- update_all env cmd (cfg_table new_pika) user_cfg ;;
  lay <- update_layout env cmd (l_layout st) ;;
  tune <- update_all env cmd tune_table (l_tune st) ;;
  do dlaf_assert (negb (l_initialized st)) ;;;
  Ok (LibState true cfg tune lay).

(** finalize(), init.cpp:418-429 *)
Definition finalize (st : lib_state) : res lib_state :=
  do dlaf_assert (l_initialized st) ;;;
  Ok (LibState false default_cfg (l_tune st) (l_layout st)).
End Config.
Arguments value V : clear implicits.
Arguments settings V : clear implicits.
Arguments lib_state V : clear implicits.
Arguments command_line V : clear implicits.
Arguments cmd_value V : clear implicits.

(** Umpire pool parameters: (initial block, next block, alignment, free ratio, reallocation ratio). *)
Definition pool_args : Type := (string * string * string * string * string)%type.
(** Init<Backend::MC>::initialize, init.cpp:75-80: the configuration fields passed to
    initializeUmpireHostAllocator *)
Definition host_pool_fields : pool_args :=
  ("umpire_host_memory_pool_initial_block_bytes", "umpire_host_memory_pool_next_block_bytes",
   "umpire_host_memory_pool_alignment_bytes", "umpire_host_memory_pool_coalescing_free_ratio",
   "umpire_host_memory_pool_coalescing_reallocation_ratio").
(** Init<Backend::GPU>::initialize, init.cpp:127-131: the configuration fields passed to
    initializeUmpireDeviceAllocator *)
Definition device_pool_fields : pool_args :=
  ("umpire_device_memory_pool_initial_block_bytes", "umpire_device_memory_pool_initial_block_bytes",
   "umpire_device_memory_pool_alignment_bytes", "umpire_host_memory_pool_coalescing_free_ratio",
   "umpire_host_memory_pool_coalescing_reallocation_ratio").
Definition pool_values {V} (f : pool_args) (cfg : settings V) : value V * value V * value V * value V * value V :=
  let '(a, b, c, d, e) := f in (cfg a, cfg b, cfg c, cfg d, cfg e).
