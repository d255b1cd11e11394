(** Model of jax_fem/utils.py (files, timing) and jax_fem/logger_setup.py.
    The outside world is a state: files by path, existing directories, log messages, and a clock.
    Simplifications: two different path strings are different files; a text file is its decoded text (a file that is not
    valid UTF-8 raises on reading); input and output errors other than a missing file or directory do not occur. *)
From Coq Require Import String Ascii List Arith Bool Reals.
From Verif Require Import Num Arr Fe Problem Basis.
Import ListNotations.

Definition text := list ascii.
Definition str (s : string) : text := list_ascii_of_string s.
Definition newline : ascii := Ascii.ascii_of_nat 10.
Definition creturn : ascii := Ascii.ascii_of_nat 13.

Record world := mkWorld {
  w_files : string -> option text;
  w_dirs : string -> bool;
  w_log : list text;
  w_tick : nat
}.
Definition set_file (p : string) (t : text) (w : world) : world :=
  mkWorld (fun q => if String.eqb q p then Some t else w_files w q) (w_dirs w) (w_log w) (w_tick w).
Definition add_dir (d : string) (w : world) : world :=
  mkWorld (w_files w) (fun q => String.eqb q d || w_dirs w q) (w_log w) (w_tick w).
Definition add_log (t : text) (w : world) : world := mkWorld (w_files w) (w_dirs w) (w_log w ++ [t]) (w_tick w).
Definition tick (w : world) : world := mkWorld (w_files w) (w_dirs w) (w_log w) (S (w_tick w)).
(** A Python call: a result and the world after it *)
Definition call (A : Type) := world -> result A * world.

(** *** Paths *)
(** posixpath.dirname: everything up to the last slash, without trailing slashes unless there is nothing else *)
Definition slash : ascii := "/"%char.
Fixpoint drop_while {A} (f : A -> bool) (l : list A) : list A :=
  match l with [] => [] | a :: l' => if f a then drop_while f l' else l end.
Definition dirname (p : string) : string :=
  let head := rev (drop_while (fun c => negb (Ascii.eqb c slash)) (rev (str p))) in
  let stripped := rev (drop_while (fun c => Ascii.eqb c slash) (rev head)) in
  string_of_list_ascii (match stripped with [] => head | _ => stripped end).
(** posixpath.join(a, b) *)
Definition path_join (a b : string) : string :=
  match str b with
  | c :: _ => if Ascii.eqb c slash then b
              else match rev (str a) with
                   | [] => b
                   | e :: _ => if Ascii.eqb e slash then (a ++ b)%string else (a ++ "/" ++ b)%string
                   end
  | [] => match rev (str a) with [] => b | e :: _ => if Ascii.eqb e slash then (a ++ b)%string else (a ++ "/" ++ b)%string end
  end.
(** os.makedirs(d, exist_ok=True): the empty path and a path that is a file raise.
    Simplification: parent directories are not tracked. *)
Definition makedirs (d : string) : call unit := fun w =>
  if String.eqb d "" then (Err OSErr, w)
  else match w_files w d with Some _ => (Err OSErr, w) | None => (Ok tt, add_dir d w) end.
(** Whether open(p, "w") succeeds *)
Definition can_write (w : world) (p : string) : bool := String.eqb (dirname p) "" || w_dirs w (dirname p).

(** *** Text *)
(** Universal newlines of open(p, "r"): CR LF and CR become LF *)
Fixpoint universal_newlines (l : text) : text :=
  match l with
  | [] => []
  | c :: l' =>
      if Ascii.eqb c creturn then
        match l' with
        | d :: l'' => if Ascii.eqb d newline then newline :: universal_newlines l'' else newline :: universal_newlines l'
        | [] => [newline]
        end
      else c :: universal_newlines l'
  end.
(** "for line in fin": lines keep their newline *)
Fixpoint split_lines (l : text) : list text :=
  match l with
  | [] => []
  | c :: l' =>
      if Ascii.eqb c newline then [c] :: split_lines l'
      else match split_lines l' with
           | [] => [[c]]
           | first :: rest => (c :: first) :: rest
           end
  end.
(** s.replace(old, new) for old not empty: leftmost occurrences that do not overlap *)
Fixpoint is_prefix (p l : text) : bool :=
  match p, l with
  | [], _ => true
  | _ :: _, [] => false
  | a :: p', b :: l' => Ascii.eqb a b && is_prefix p' l'
  end.
Fixpoint replace_from (skip : nat) (old new l : text) : text :=
  match l with
  | [] => []
  | c :: l' =>
      match skip with
      | S k => replace_from k old new l'
      | O => if is_prefix old l then new ++ replace_from (length old - 1) old new l' else c :: replace_from 0 old new l'
      end
  end.
Definition replace (old new l : text) : text := replace_from 0 old new l.

Definition version22 : text := str "<VTKFile type=""UnstructuredGrid"" version=""2.2"">".
Definition version10 : text := str "<VTKFile type=""UnstructuredGrid"" version=""1.0"">".
(** utils.py:60-80.  Opening the output truncates it before the first line is read. *)
Definition modify_vtu_file (input output : string) : call unit := fun w =>
  match w_files w input with
  | None => (Err OSErr, w)
  | Some _ =>
      if can_write w output then
        let w1 := set_file output [] w in
        let content := match w_files w1 input with Some t => t | None => [] end in
        (Ok tt, set_file output (concat (map (replace version22 version10) (split_lines (universal_newlines content)))) w1)
      else (Err OSErr, w)
  end.

(** *** save_sol, utils.py:13-57 *)
Section Save.
  Context {X : Type} (to_float32 : X -> X).
  (** an array: its shape and its entries *)
  Record array := mkArray { a_shape : list nat; a_data : list X }.
  Definition as_float32 (a : array) : array := mkArray (a_shape a) (map to_float32 (a_data a)).
  Record vtk := mkVtk {
    v_points : list (list X); v_type : string; v_cells : list (list nat);
    v_point_data : list (string * array); v_cell_data : list (string * list array) }.
  (** d[k] = v on a dict *)
  Fixpoint assign {V} (d : list (string * V)) (k : string) (v : V) : list (string * V) :=
    match d with
    | [] => [(k, v)]
    | (k', v') :: d' => if String.eqb k k' then (k', v) :: d' else (k', v') :: assign d' k v
    end.
  (** len(x) *)
  Definition len (a : array) : result nat := match a_shape a with [] => Err TypeErr | n :: _ => Ok n end.
  Definition shape_is (s : list nat) (a : array) : bool := if list_eq_dec Nat.eq_dec (a_shape a) s then true else false.
  Fixpoint add_cells (num_cells : nat) (infos : list (string * array)) (m : vtk) : result vtk :=
    match infos with
    | [] => Ok m
    | (name, data) :: infos' =>
        if shape_is [num_cells] data then
          add_cells num_cells infos' (mkVtk (v_points m) (v_type m) (v_cells m) (v_point_data m) (assign (v_cell_data m) name [as_float32 data]))
        else Err AssertionErr
    end.
  Fixpoint add_points (sol : array) (infos : list (string * array)) (m : vtk) : result vtk :=
    match infos with
    | [] => Ok m
    | (name, data) :: infos' =>
        bind (len data) (fun n => bind (len sol) (fun k =>
          if (n =? k)%nat then
            add_points sol infos' (mkVtk (v_points m) (v_type m) (v_cells m) (assign (v_point_data m) name (as_float32 data)) (v_cell_data m))
          else Err AssertionErr))
    end.
  (** out_mesh.write(path): meshio encodes the mesh (it may raise: unknown extension, wrong shapes), then the file is written *)
  Definition write (encode : string -> vtk -> result text) (path : string) (m : vtk) : call unit := fun w =>
    match encode path m with
    | Err e => (Err e, w)
    | Ok t => (Ok tt, set_file path t w)
    end.
  Definition save_sol (encode : string -> vtk -> result text) (ele_type : string) (points : list (list X)) (cells : list (list nat))
      (sol : array) (sol_file : string) (cell_infos point_infos : option (list (string * array))) : call unit := fun w =>
    match get_meshio_cell_type ele_type with
    | Err e => (Err e, w)
    | Ok cell_type =>
        match makedirs (dirname sol_file) w with
        | (Err e, w1) => (Err e, w1)
        | (Ok _, w1) =>
            let m := mkVtk points cell_type cells [("sol"%string, as_float32 sol)] [] in
            match (match cell_infos with Some l => add_cells (length cells) l m | None => Ok m end) with
            | Err e => (Err e, w1)
            | Ok m1 =>
                match (match point_infos with Some l => add_points sol l m1 | None => Ok m1 end) with
                | Err e => (Err e, w1)
                | Ok m2 => write encode sol_file m2 w1
                end
            end
        end
    end.
End Save.
Arguments array : clear implicits. Arguments vtk : clear implicits.

(** *** Timing decorators *)
Section Timing.
  Context {A : Type} (clock : nat -> R) (show4 show : R -> text).
  (** time.perf_counter() / time.time() *)
  Definition now : world -> R * world := fun w => (clock (w_tick w), tick w).
  (** utils.py:139-162; [func] is the wrapped function already applied to its arguments *)
  Definition timeit (name : text) (func : call A) : call A := fun w =>
    let '(t0, w) := now w in
    match func w with
    | (Err e, w) => (Err e, w)
    | (Ok result, w) =>
        let '(t1, w) := now w in
        (Ok result, add_log (str "Function " ++ name ++ str " took " ++ show4 (t1 - t0)%R ++ str " seconds") w)
    end.
  (** utils.py:165-206.  [platform] is jax.lib.xla_bridge.get_backend().platform, which may raise. *)
  Definition walltime (platform : result string) (txt_dir filename : option string) (name : text) (func : call A) : call A := fun w =>
    let '(t0, w) := now w in
    match func w with
    | (Err e, w) => (Err e, w)
    | (Ok values, w) =>
        let '(t1, w) := now w in
        let elapsed := (t1 - t0)%R in
        match platform with
        | Err e => (Err e, w)
        | Ok platform =>
            let w := add_log (str "Time elapsed " ++ show elapsed ++ str " of function " ++ name ++ str " on platform " ++ str platform) w in
            match txt_dir with
            | None => (Ok values, w)
            | Some d =>
                match makedirs d w with
                | (Err e, w) => (Err e, w)
                | (Ok _, w) =>
                    let fname := match filename with Some f => f | None => "walltime"%string end in
                    let path := path_join d (fname ++ "_" ++ platform ++ ".txt") in
                    if can_write w path then
                      (Ok values, set_file path (show t0 ++ str ", " ++ show t1 ++ str ", " ++ show elapsed ++ [newline]) w)
                    else (Err OSErr, w)
                end
            end
        end
    end.
End Timing.

(** *** setup_logger, logger_setup.py:5-29 *)
Inductive level := NOTSET | DEBUG | INFO | ERROR.
(** A handler: an identity, and whether it has the formatter of logger_setup.py:18 *)
Record handler := mkHandler { h_id : nat; h_formatted : bool }.
Record logger := mkLogger { l_level : level; l_handlers : list handler; l_propagate : bool }.
(** logging's registry (a logger that was never asked for has the default settings) and the next identity.
    Simplification: the root logger is not reached through its name. *)
Record logging := mkLogging { loggers : string -> logger; next_id : nat }.
Definition set_logger (name : string) (l : logger) (st : logging) : logging :=
  mkLogging (fun n => if String.eqb n name then l else loggers st n) (next_id st).
Definition set_level (name : string) (v : level) (st : logging) : logging :=
  let l := loggers st name in set_logger name (mkLogger v (l_handlers l) (l_propagate l)) st.
Definition setup_logger (name : string) (st : logging) : logging :=
  let st := set_level name DEBUG st in
  let st := set_level "tensorflow" ERROR st in
  let st := set_level "jax" ERROR st in
  let h := mkHandler (next_id st) true in
  let st := mkLogging (loggers st) (S (next_id st)) in
  let l := loggers st name in
  match l_handlers l with
  | [] => set_logger name (mkLogger (l_level l) (l_handlers l ++ [h]) false) st
  | _ :: _ => st
  end.
