(** C48-C50, C68: files, timing decorators, logging. *)
From Coq Require Import String Ascii List Arith Bool Reals.
From Verif Require Import Num Fe Basis Utils SpecUtils UtilsFacts.
Import ListNotations.

(** C48.  For a file without carriage returns: every occurrence of the old header becomes the new one, in place, and nothing else changes. *)
Theorem C48_only_header : forall input output w content,
  w_files w input = Some content -> input <> output -> can_write w output = true -> ~ In creturn content ->
  exists w' T, modify_vtu_file input output w = (Ok tt, w') /\ w_files w' output = Some T /\
  (forall p, p <> output -> w_files w' p = w_files w p) /\
  length T = length content /\ length (split_lines T) = length (split_lines content) /\
  (forall k, occurs version22 content k -> occurs version10 T k) /\
  (forall i, ~ covered version22 content i -> nth_error T i = nth_error content i) /\
  (forall k, ~ occurs version22 T k).
Proof. exact modify_only_header. Qed.
Print Assumptions C48_only_header.

(** Carriage returns are turned into newlines first (Python's text mode): the result is that of the file with plain newlines. *)
Theorem C48_newlines : forall input output w content,
  w_files w input = Some content -> input <> output -> can_write w output = true ->
  w_files (snd (modify_vtu_file input output w)) output
  = w_files (snd (modify_vtu_file input output (set_file input (universal_newlines content) w))) output.
Proof. exact modify_newlines. Qed.
Print Assumptions C48_newlines.

(** Applying it to its own output changes nothing. *)
Theorem C48_idempotent : forall input output output2 w content,
  w_files w input = Some content -> input <> output -> output <> output2 -> can_write w output = true -> can_write w output2 = true ->
  exists w1 w2, modify_vtu_file input output w = (Ok tt, w1) /\ modify_vtu_file output output2 w1 = (Ok tt, w2) /\
  w_files w2 output2 = w_files w1 output.
Proof. exact modify_idempotent. Qed.
Print Assumptions C48_idempotent.

(** With the same path twice the file is emptied; a missing input raises and nothing is written. *)
Theorem C48_same_path_refuted : forall path w content, w_files w path = Some content -> can_write w path = true ->
  exists w', modify_vtu_file path path w = (Ok tt, w') /\ w_files w' path = Some [].
Proof. exact modify_in_place. Qed.
Print Assumptions C48_same_path_refuted.
Theorem C48_missing : forall input output w, w_files w input = None -> modify_vtu_file input output w = (Err OSErr, w).
Proof. exact modify_missing. Qed.
Print Assumptions C48_missing.

Definition demo_world : world :=
  mkWorld (fun p => if String.eqb p "data/in.vtu" then Some (str "<?xml?>" ++ [newline] ++ version22 ++ [newline] ++ str "2.2") else None) (fun d => String.eqb d "data") [] 0.
Example C48_nonvacuous :
  w_files (snd (modify_vtu_file "data/in.vtu" "data/out.vtu" demo_world)) "data/out.vtu" = Some (str "<?xml?>" ++ [newline] ++ version10 ++ [newline] ++ str "2.2").
Proof. reflexivity. Qed.

(** C49.  [encode] is meshio's writer, [f32] the rounding to single precision. *)
Theorem C49_saved : forall (X : Type) (f32 : X -> X) encode ele_type cell_type points cells (sol : array X) path cell_infos point_infos w,
  get_meshio_cell_type ele_type = Ok cell_type -> dirname path <> ""%string -> w_files w (dirname path) = None ->
  (forall e, In e (items cell_infos) -> a_shape (snd e) = [length cells]) -> (forall e, In e (items point_infos) -> good_point sol (snd e)) ->
  exists m, save_sol f32 encode ele_type points cells sol path cell_infos point_infos w = write encode path m (add_dir (dirname path) w) /\
    v_points m = points /\ v_type m = cell_type /\ v_cells m = cells /\
    NoDup (map fst (v_point_data m)) /\ NoDup (map fst (v_cell_data m)) /\
    (forall k, entry (v_cell_data m) k = match last_named (items cell_infos) k with Some a => Some [as_float32 f32 a] | None => None end) /\
    (forall k, entry (v_point_data m) k = match last_named (items point_infos) k with
                                          | Some a => Some (as_float32 f32 a)
                                          | None => if String.eqb k "sol" then Some (as_float32 f32 sol) else None end).
Proof. exact @save_valid. Qed.
Print Assumptions C49_saved.

(** An array of the wrong shape: an exception, and no file is written. *)
Theorem C49_rejected : forall (X : Type) (f32 : X -> X) encode ele_type points cells (sol : array X) path cell_infos point_infos w,
  (exists e, In e (items cell_infos) /\ a_shape (snd e) <> [length cells]) \/ (exists e, In e (items point_infos) /\ ~ good_point sol (snd e)) ->
  exists e w', save_sol f32 encode ele_type points cells sol path cell_infos point_infos w = (Err e, w') /\ forall p, w_files w' p = w_files w p.
Proof. exact @save_invalid. Qed.
Print Assumptions C49_rejected.

(** A path without a directory part always raises: os.makedirs('') does.  An unknown element type raises before anything happens. *)
Theorem C49_bare_file_name : forall (X : Type) (f32 : X -> X) encode ele_type cell_type points cells (sol : array X) path cell_infos point_infos w,
  get_meshio_cell_type ele_type = Ok cell_type -> dirname path = ""%string ->
  save_sol f32 encode ele_type points cells sol path cell_infos point_infos w = (Err OSErr, w).
Proof. exact @save_bare. Qed.
Print Assumptions C49_bare_file_name.
Theorem C49_unknown_element : forall (X : Type) (f32 : X -> X) encode ele_type points cells (sol : array X) path cell_infos point_infos w e,
  get_meshio_cell_type ele_type = Err e -> save_sol f32 encode ele_type points cells sol path cell_infos point_infos w = (Err e, w).
Proof. exact @save_unknown. Qed.
Print Assumptions C49_unknown_element.

Example C49_nonvacuous :
  let a (n : nat) := mkArray [n; 2] (repeat 7 (2 * n)) in let c (n : nat) := mkArray [n] (repeat n n) in
  let save cells := save_sol (fun x => x) (fun _ m => Ok (str (v_type m) ++ str (String.concat "," (map fst (v_point_data m) ++ map fst (v_cell_data m)))))
     "QUAD4" [] cells (a 4) "out/u.vtu" (Some [("p"%string, c 1); ("q"%string, c 1)]) (Some [("T"%string, a 4); ("sol"%string, a 4)]) demo_world in
  dirname "out/u.vtu" = "out"%string /\ dirname "u.vtu" = ""%string /\
  w_files (snd (save [[0; 1; 2; 3]])) "out/u.vtu" = Some (str "quad" ++ str "sol,T,p,q") /\
  fst (save [[0; 1; 2; 3]; [0; 1; 2; 3]]) = Err AssertionErr.
Proof. cbv zeta. repeat split. Qed.

(** C50.  Any history of calls: a logger that starts without a handler and is set up at least once ends with exactly one, formatted,
    and does not propagate; one that starts with handlers, or is never named, keeps them. *)
Theorem C50_one_handler : forall names st n, l_handlers (loggers st n) = [] -> In n names ->
  let st' := fold_left (fun st n => setup_logger n st) names st in
  exists h, l_handlers (loggers st' n) = [h] /\ h_formatted h = true /\ l_propagate (loggers st' n) = false.
Proof. exact setups_one. Qed.
Print Assumptions C50_one_handler.
Theorem C50_handlers_kept : forall names st n, l_handlers (loggers st n) <> [] \/ ~ In n names ->
  let st' := fold_left (fun st n => setup_logger n st) names st in
  l_handlers (loggers st' n) = l_handlers (loggers st n) /\ l_propagate (loggers st' n) = l_propagate (loggers st n).
Proof. exact setups_kept. Qed.
Print Assumptions C50_handlers_kept.
Theorem C50_levels : forall names st n, let st' := fold_left (fun st n => setup_logger n st) names st in
  (n = "tensorflow"%string \/ n = "jax"%string -> names <> [] -> l_level (loggers st' n) = ERROR) /\
  (n <> "tensorflow"%string -> n <> "jax"%string ->
   l_level (loggers st' n) = if in_dec string_dec n names then DEBUG else l_level (loggers st n)).
Proof. exact setups_levels. Qed.
Print Assumptions C50_levels.

Example C50_nonvacuous :
  let st := mkLogging (fun n => if String.eqb n "mine" then mkLogger INFO [mkHandler 0 false] true else mkLogger NOTSET [] true) 1 in
  let st' := fold_left (fun st n => setup_logger n st) ["jax_fem"; "mine"; "jax_fem"]%string st in
  l_handlers (loggers st' "jax_fem") = [mkHandler 1 true] /\ l_handlers (loggers st' "mine") = [mkHandler 0 false].
Proof. cbv zeta. split; reflexivity. Qed.

(** C68.  Decorated with timeit or walltime a function returns what it returned and raises what it raised, and changes files as it did;
    timeit logs one message, the name and the seconds between the two readings of the clock; walltime replaces one file. *)
Theorem C68_timeit : forall (A : Type) clock show4 name (func : call A) w r w', func (tick w) = (r, w') ->
  exists w'', timeit clock show4 name func w = (r, w'') /\ w_files w'' = w_files w' /\ w_dirs w'' = w_dirs w' /\
  w_log w'' = w_log w' ++ match r with
    | Ok _ => [str "Function " ++ name ++ str " took " ++ show4 (clock (w_tick w') - clock (w_tick w))%R ++ str " seconds"]
    | Err _ => []
    end.
Proof. exact @timeit_transparent. Qed.
Print Assumptions C68_timeit.
Theorem C68_walltime_raises : forall (A : Type) clock show platform dir file name (func : call A) w e w', func (tick w) = (Err e, w') ->
  walltime clock show platform dir file name func w = (Err e, w').
Proof. exact @walltime_error. Qed.
Print Assumptions C68_walltime_raises.
Theorem C68_walltime_log_only : forall (A : Type) clock show p file name (func : call A) w a w', func (tick w) = (Ok a, w') ->
  exists w'', walltime clock show (Ok p) None file name func w = (Ok a, w'') /\ w_files w'' = w_files w'.
Proof. exact @walltime_plain. Qed.
Print Assumptions C68_walltime_log_only.
Theorem C68_walltime_file : forall (A : Type) clock show p d file name (func : call A) w a w', func (tick w) = (Ok a, w') ->
  let fname := match file with Some f => f | None => "walltime"%string end in
  d <> ""%string -> last (str d) "/"%char <> "/"%char -> w_files w' d = None ->
  ~ In "/"%char (str (fname ++ "_" ++ p ++ ".txt")) ->
  let path := (d ++ "/" ++ fname ++ "_" ++ p ++ ".txt")%string in
  exists w'', walltime clock show (Ok p) (Some d) file name func w = (Ok a, w'') /\ w_dirs w'' d = true /\
  (forall q, q <> path -> w_files w'' q = w_files w' q) /\
  let t0 := clock (w_tick w) in let t1 := clock (w_tick w') in
  w_files w'' path = Some (show t0 ++ str ", " ++ show t1 ++ str ", " ++ show (t1 - t0)%R ++ [newline]).
Proof. exact @walltime_writes. Qed.
Print Assumptions C68_walltime_file.
(** If the platform cannot be read the result is lost. *)
Theorem C68_platform_refuted : forall (A : Type) clock show dir file name (func : call A) w a w' e, func (tick w) = (Ok a, w') ->
  fst (walltime clock show (Err e) dir file name func w) = Err e.
Proof. exact @walltime_platform. Qed.
Print Assumptions C68_platform_refuted.

Example C68_nonvacuous :
  let func : call nat := fun w => (Ok 5, set_file "f" (str "x") w) in
  let r := walltime (fun n => INR n) (fun _ => str "t") (Ok "cpu"%string) (Some "out"%string) None (str "func") func demo_world in
  fst r = Ok 5 /\ w_files (snd r) "f" = Some (str "x") /\ w_files (snd r) "out/walltime_cpu.txt" = Some (str "t, t, t" ++ [newline]).
Proof. cbv zeta. repeat split. Qed.
