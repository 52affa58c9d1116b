(** * Unix paths ([std::path]), as used by the include search and [%glob] *)

From Coq Require Import String List Ascii Bool Arith NArith.
From Verif Require Import Text Numbers.
Import ListNotations.

(** [std::path::Component] (without Windows prefixes), in its derived order. *)
Inductive component := RootDir | CurDir | ParentDir | Normal (name : bytes).

Definition component_rank (c : component) : N :=
  match c with RootDir => 0 | CurDir => 1 | ParentDir => 2 | Normal _ => 3 end.
Definition component_cmp (x y : component) : comparison :=
  match x, y with
  | Normal s, Normal t => bytes_cmp s t
  | _, _ => N.compare (component_rank x) (component_rank y)
  end.

(** Pieces between slashes. *)
Fixpoint segments (cur s : bytes) : list bytes :=
  match s with
  | [] => [cur]
  | c :: s' => if ch c "/" then cur :: segments [] s' else segments (cur ++ [c]) s'
  end.

(** [Path::components]: repeated slashes, trailing slashes and [.] (except
    at the beginning of a relative path) are dropped. *)
Definition is_absolute (p : bytes) : bool :=
  match p with c :: _ => ch c "/" | [] => false end.
Definition component_of (first : bool) (s : bytes) : list component :=
  if beq s [] then []
  else if beq s (b ".") then (if first then [CurDir] else [])
  else if beq s (b "..") then [ParentDir]
  else [Normal s].
Definition components (p : bytes) : list component :=
  match segments [] p with
  | [] => []
  | s :: rest =>
      (if is_absolute p then [RootDir] else component_of true s)
      ++ flat_map (component_of false) rest
  end.

(** [Path::cmp]. *)
Fixpoint list_cmp {A} (cmp : A -> A -> comparison) (x y : list A) : comparison :=
  match x, y with
  | [], [] => Eq
  | [], _ => Lt
  | _, [] => Gt
  | c :: x', d :: y' => match cmp c d with Eq => list_cmp cmp x' y' | o => o end
  end.
Definition path_cmp (p q : bytes) : comparison :=
  list_cmp component_cmp (components p) (components q).

Definition last_byte (p : bytes) : option ascii :=
  match rev p with c :: _ => Some c | [] => None end.

(** [Path::join]. *)
Definition path_join (dir p : bytes) : bytes :=
  if is_absolute p then p
  else match last_byte dir with
       | None => p
       | Some c => if ch c "/" then dir ++ p else dir ++ b "/" ++ p
       end.

(** A path without the trailing slashes and [/.] that [components] ignores;
    the argument is the reversed path. *)
Fixpoint trim_rev (r : bytes) : bytes :=
  match r with
  | c :: r' =>
      if ch c "/" then match r' with [] => r | _ => trim_rev r' end
      else if ch c "." then
        match r' with
        | d :: r'' => if ch d "/" then match r'' with [] => r' | _ => trim_rev r' end else r
        | [] => r
        end
      else r
  | [] => []
  end.
Fixpoint take_name (r : bytes) : bytes * bytes :=
  match r with
  | [] => ([], [])
  | c :: r' => if ch c "/" then ([], r)
               else let '(n, d) := take_name r' in (c :: n, d)
  end.

(** [Path::file_name] and the path left by [PathBuf::pop]. *)
Definition file_name (p : bytes) : option (bytes * bytes) :=
  let '(n, d) := take_name (trim_rev (rev p)) in
  let name := rev n in
  if beq name [] || beq name (b ".") || beq name (b "..") then None
  else Some (name, rev (trim_rev d)).

(** [expander.rs:612-620]: the path with [.sex] appended to its file name. *)
Definition with_sex (p : bytes) : option bytes :=
  match file_name p with
  | Some (name, parent) => Some (path_join parent (name ++ b ".sex"))
  | None => None
  end.

(** [Path::extension]: after the last dot of the file name, unless that dot
    is its first byte.  [last_dot] splits at the last dot. *)
Fixpoint last_dot (s : bytes) : option (bytes * bytes) :=
  match s with
  | [] => None
  | c :: s' =>
      match last_dot s' with
      | Some (before, after) => Some (c :: before, after)
      | None => if ch c "." then Some ([], s') else None
      end
  end.
Definition extension (p : bytes) : option bytes :=
  match file_name p with
  | None => None
  | Some (name, _) =>
      match last_dot name with
      | Some ([], _) | None => None
      | Some (_, after) => Some after
      end
  end.

(** [BTreeSet::insert]: the element goes in front of the first element it is
    less than; an equal element is kept instead.  (Exact for comparisons that
    are total orders, and for the comparison that always answers [Lt].) *)
Fixpoint bt_insert {A} (cmp : A -> A -> comparison) (x : A) (l : list A) : list A :=
  match l with
  | [] => [x]
  | y :: l' =>
      match cmp x y with
      | Lt => x :: l
      | Eq => l
      | Gt => y :: bt_insert cmp x l'
      end
  end.

(** [expander.rs:102] and [115-124]: the set of include directories, [.] and
    those given. *)
Definition include_set (dirs : list bytes) : list bytes :=
  fold_left (fun set d => bt_insert path_cmp d set) dirs [b "."].
