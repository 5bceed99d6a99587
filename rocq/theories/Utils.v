(** Model of /repo/agnpy/utils/validation_utils.py (clean_and_make_dir,
    extract_columns_sample_file, check_deviation) and of to_total_energy_gev_sqr,
    /repo/agnpy/time_evolution/_time_evolution_utils.py L251-256. *)
From Coq Require Import Ascii.
From Verif Require Import Base.
Open Scope string_scope.
Open Scope list_scope.
Open Scope R_scope.

(** ** The file system *)
(** what _dir.exists() and _dir.is_dir() tell apart, validation_utils.py L43 *)
Inductive node := FileNode | DirNode.
(** absolute path, from the root *)
(** a place in the file system, as _dir names it (validation_utils.py L43-46) *)
Definition path := list string.
(** What is at each absolute path.  Links, permissions and file contents are not
    modelled. *)
(** the file system that validation_utils.py L43-46 reads and changes *)
Definition fsys := path -> option node.
(** exceptions of the operating system interface *)
(** exceptions of validation_utils.py L39 and of the calls in L43-46 *)
Inductive os_error := FileExistsError | NotADirectoryError | WrongTypes.
(** outcome of clean_and_make_dir, validation_utils.py L19-48 *)
Inductive outcome (A : Type) := Done (a : A) | Fail (e : os_error).
Arguments Done {A} a.
Arguments Fail {A} e.

(** pathlib.Path of a string: absolute if it begins with a slash, the parts
    between the slashes without empty ones and ".".  A part ".." is kept, as
    pathlib does; what the system makes of it is not modelled. *)
(** pathlib.Path of a string, validation_utils.py L31, L33 *)
Fixpoint split_parts (cur : string) (s : string) : list string :=
  match s with
  | EmptyString => cur :: nil
  | String c r => if Ascii.eqb c "/"%char then cur :: split_parts "" r else split_parts (cur ++ String c EmptyString)%string r
  end.
(** pathlib leaves out empty parts and "." (validation_utils.py L31, L33) *)
Definition proper_part (p : string) : bool := negb (String.eqb p "") && negb (String.eqb p ".").
(** Path(s).parts without the root, validation_utils.py L31, L33 *)
Definition parts (s : string) : list string := filter proper_part (split_parts "" s).
(** Path(s).is_absolute(), validation_utils.py L31, L33 *)
Definition is_abs (s : string) : bool := match s with String c _ => Ascii.eqb c "/"%char | EmptyString => false end.
(** PosixPath, validation_utils.py L34, L36 *)
Record posix_path := { pp_abs : bool; pp_parts : list string }.
(** Path(main_dir), validation_utils.py L31, L33 *)
Definition mk_path (s : string) : posix_path := {| pp_abs := is_abs s; pp_parts := parts s |}.
(** p / q: an absolute second operand replaces the first *)
(** main_dir / sub_dir, validation_utils.py L37 *)
Definition join (p q : posix_path) : posix_path :=
  if pp_abs q then q else {| pp_abs := pp_abs p; pp_parts := pp_parts p ++ pp_parts q |}.
(** str(p) *)
(** the parts with slashes between them, for str(p) (validation_utils.py L33) *)
Fixpoint slashed (l : list string) : string :=
  match l with nil => "" | a :: nil => a | a :: r => (a ++ "/" ++ slashed r)%string end.
(** str(p) in the f-string of validation_utils.py L33 *)
Definition path_str (p : posix_path) : string :=
  if pp_abs p then ("/" ++ slashed (pp_parts p))%string else match pp_parts p with nil => "." | l => slashed l end.
(** the place meant by a path when the working directory is [cwd] *)
(** the operating system's view of _dir, validation_utils.py L43-46 *)
Definition resolve (cwd : path) (p : posix_path) : path := if pp_abs p then pp_parts p else cwd ++ pp_parts p.

(** main_dir and sub_dir: a string, a PosixPath, or another object with its str() *)
(** the arguments of clean_and_make_dir, validation_utils.py L19, L30-38 *)
Inductive dir_arg := AStr (s : string) | APath (p : posix_path) | AOther (repr : string).
(** formatting of the arguments by the f-string of validation_utils.py L33 *)
Definition arg_str (a : dir_arg) : string := match a with AStr s => s | APath p => path_str p | AOther s => s end.
(** the if chain, validation_utils.py L30-41.  PosixPath / x takes strings and
    paths and raises TypeError for other objects. *)
Definition target_dir (main : dir_arg) (sub : option dir_arg) : outcome posix_path :=
  match main, sub with
  | AStr s, None => Done (mk_path s)
  | AStr s, Some x => Done (mk_path (s ++ "/" ++ arg_str x)%string)
  | APath p, None => Done p
  | APath p, Some (AStr s) => Done (join p (mk_path s))
  | APath p, Some (APath q) => Done (join p q)
  | APath p, Some (AOther _) => Fail WrongTypes
  | AOther _, _ => Fail WrongTypes
  end.

(** equality of places (no code of its own) *)
Definition path_eq_dec := list_eq_dec string_dec.
(** q is p or below p (used by rmtree, validation_utils.py L44) *)
Fixpoint is_prefix (p q : path) : bool :=
  match p, q with
  | nil, _ => true
  | a :: p', b :: q' => String.eqb a b && is_prefix p' q'
  | _, nil => false
  end.
(** shutil.rmtree: the directory and everything below it is gone *)
(** validation_utils.py L44 *)
Definition rmtree (f : fsys) (p : path) : fsys := fun q => if is_prefix p q then None else f q.
(** os.mkdir, called by _dir.mkdir (validation_utils.py L46) *)
Definition set_dir (f : fsys) (p : path) : fsys := fun q => if path_eq_dec q p then Some DirNode else f q.
(** parent; the root is its own *)
(** Path.parent, used by _dir.mkdir (validation_utils.py L46) *)
Definition parent (p : path) : path := removelast p.
(** a component on the way to [p] is a file (ENOTDIR) *)
(** ENOTDIR of os.mkdir (validation_utils.py L46) *)
Definition file_above (f : fsys) (p : path) : bool :=
  existsb (fun i => match f (firstn i p) with Some FileNode => true | _ => false end) (seq 0 (length p)).
(** Path.mkdir(parents=True, exist_ok=True): os.mkdir; FileNotFoundError makes
    it create the parent first; any other error is raised unless the directory
    is there.  [n] bounds the depth, the length of the path suffices. *)
(** _dir.mkdir(parents=True, exist_ok=True), validation_utils.py L46 *)
Fixpoint mkdir_p (n : nat) (f : fsys) (p : path) : outcome fsys :=
  if file_above f p then Fail NotADirectoryError
  else match f p with
  | Some DirNode => Done f
  | Some FileNode => Fail FileExistsError
  | None =>
      match f (parent p) with
      | Some _ => Done (set_dir f p)
      | None => match n with
                | O => Done f
                | S n' => match mkdir_p n' f (parent p) with Done f' => Done (set_dir f' p) | Fail e => Fail e end
                end
      end
  end.
(** clean_and_make_dir, validation_utils.py L19-48: the file system left behind,
    and the path returned or the exception.  Removing the working directory
    itself is not modelled. *)
Definition clean_and_make_dir (cwd : path) (f : fsys) (main : dir_arg) (sub : option dir_arg) : fsys * outcome posix_path :=
  match target_dir main sub with
  | Fail e => (f, Fail e)
  | Done pp =>
      let p := resolve cwd pp in
      let f1 := match f p with Some DirNode => rmtree f p | _ => f end in
      match mkdir_p (length p) f1 p with
      | Done f2 => (f2, Done pp)
      | Fail e => (f1, Fail e)
      end
  end.

(** ** Reference samples *)
(** np.loadtxt: the rows of numbers; one row only, or one column only, gives a
    one-dimensional array, on which [:, 0] raises IndexError; rows of different
    lengths raise ValueError; no rows at all give an empty one-dimensional array. *)
Definition loadtxt_2d (rows : list (list R)) : res (list (list R)) :=
  match rows with
  | nil => Err IndexError
  | r :: rest => if forallb (fun q => Nat.eqb (length q) (length r)) rest
                 then match rest with
                      | nil => Err IndexError
                      | _ => if Nat.leb (length r) 1 then Err IndexError else Ok rows
                      end
                 else Err (ValueError "the number of columns changed")
  end.
(** extract_columns_sample_file, validation_utils.py L51-56; the units label the
    numbers and are dropped *)
Definition extract_columns (rows : list (list R)) : res (list R * list R) :=
  let! t := loadtxt_2d rows in Ok (map (fun r => nth 0 r 0) t, map (fun r => nth 1 r 0) t).

(** numbers that may be NaN *)
(** an element of x, y_comp, y_ref, validation_utils.py L59 *)
Definition num := option R.
(** x >= x_range[0] and x <= x_range[1], validation_utils.py L69; false for NaN *)
Definition num_le (a b : num) : bool := match a, b with Some x, Some y => Rleb x y | _, _ => false end.
(** x[condition]: the mask must be as long as the array *)
(** y_ref[condition], validation_utils.py L70-71 *)
Fixpoint select {A : Type} (mask : list bool) (l : list A) : list A :=
  match mask, l with
  | b :: mask', a :: l' => if b then a :: select mask' l' else select mask' l'
  | _, _ => nil
  end.
(** y_ref[condition] with numpy's check of the length, validation_utils.py L70-71 *)
Definition masked {A : Type} (mask : list bool) (l : list A) : res (list A) :=
  if Nat.eqb (length mask) (length l) then Ok (select mask l) else Err IndexError.
(** np.isclose(a, b, atol=0, rtol): |a - b| <= rtol |b|, false for NaN *)
Definition close1 (rtol : R) (ab : num * num) : bool :=
  match ab with (Some a, Some b) => Rleb (Rabs (a - b)) (rtol * Rabs b) | _ => false end.
(** broadcasting of two one-dimensional arrays *)
(** np.allclose on arrays of different lengths, validation_utils.py L72 *)
Definition broadcast {A : Type} (l m : list A) : res (list (A * A)) :=
  if Nat.eqb (length l) (length m) then Ok (combine l m)
  else match l, m with
       | a :: nil, _ => Ok (map (fun b => (a, b)) m)
       | _, b :: nil => Ok (map (fun a => (a, b)) l)
       | _, _ => Err (ValueError "operands could not be broadcast together")
       end.
(** check_deviation, validation_utils.py L59-72.  All values are in one unit
    (astropy converts them). *)
Definition check_deviation (x y_comp y_ref : list num) (rtol : R) (x_range : option (num * num)) : res bool :=
  let! cr := match x_range with
             | None => Ok (y_comp, y_ref)
             | Some (lo, hi) =>
                 let condition := map (fun v => num_le lo v && num_le v hi) x in
                 let! r := masked condition y_ref in
                 let! c := masked condition y_comp in
                 Ok (c, r)
             end in
  let! pairs := broadcast (fst cr) (snd cr) in
  Ok (forallb (close1 rtol) pairs).

(** to_total_energy_gev_sqr, _time_evolution_utils.py L251-256; [m] is mec2 in
    GeV, densities per unit of Lorentz factor *)
Definition to_total_energy_gev_sqr (m : R) (gm density : list R) (volume : R) : list R :=
  map2 (fun g n => n / m * volume * (g * m) ^ 2) gm density.
