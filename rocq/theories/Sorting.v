(** * Model of the orderings used by [%sort] and [%glob] *)

From Coq Require Import String List Ascii Bool Arith NArith ZArith.
From Verif Require Import Text Res Env Numbers Paths.
Import ListNotations.

(** ** [slice::sort_by] *)

Definition comparison_eqb (x y : comparison) : bool :=
  match x, y with Eq, Eq | Lt, Lt | Gt, Gt => true | _, _ => false end.
Definition not_gt (o : comparison) : bool :=
  match o with Gt => false | _ => true end.

(** Is the comparison a total preorder on these elements? *)
Definition is_order {A} (cmp : A -> A -> comparison) (l : list A) : bool :=
  forallb (fun x => forallb (fun y =>
    comparison_eqb (cmp y x) (CompOpp (cmp x y)) &&
    forallb (fun z =>
      negb (not_gt (cmp x y) && not_gt (cmp y z)) || not_gt (cmp x z)) l) l) l.

Fixpoint sort_insert {A} (cmp : A -> A -> comparison) (x : A) (l : list A) : list A :=
  match l with
  | [] => [x]
  | y :: l' => match cmp x y with
               | Gt => y :: sort_insert cmp x l'
               | _ => x :: l
               end
  end.
Definition insertion_sort {A} (cmp : A -> A -> comparison) (l : list A) : list A :=
  fold_right (sort_insert cmp) [] l.

(** The elements of [l] in the order [ks] says: each number, modulo how many
    elements are left, is the index of the next one. *)
Fixpoint arrange {A} (ks : list nat) (l : list A) : list A :=
  match ks with
  | [] => l
  | k :: ks' =>
      let i := k mod length l in
      match skipn i l with
      | [] => []
      | x :: after => x :: arrange ks' (firstn i l ++ after)
      end
  end.

(** [slice::sort_by] is a stable sort if the comparison is a total order (up
    to equality); otherwise the standard library may panic or return the
    elements in any order; which of these, is up to [e_unsorted]. *)
Definition sort_by {A} (E : env) (cmp : A -> A -> comparison) (l : list A) : res (list A) :=
  if is_order cmp l then Ok (insertion_sort cmp l)
  else match e_unsorted E (map (fun x => map (cmp x) l) l) with
       | Some ks => Ok (arrange ks l)
       | None => Panic PSortOrder
       end.

(** [expander.rs:1465-1477] comparison of two keys. *)
Definition key_cmp (E : env) (x y : bytes) : comparison :=
  match parse_i64 x, parse_i64 y with
  | Some n, Some m => Z.compare n m
  | _, _ =>
      match e_float E x, e_float E y with
      | Some (Some f), Some (Some g) => Z.compare f g
      | _, _ => bytes_cmp x y
      end
  end.

(** ** [%glob] *)

(** [expander.rs:1167] [SortBy]. *)
Inductive sort_key := ByModified | ByCreated | ByName | ByType | ByNone.

Record found := Found { f_path : bytes; f_meta : meta }.

Definition time_cmp (t0 t1 : option Z) (p0 p1 : bytes) : comparison :=
  match t0, t1 with
  | Some d0, Some d1 => if Z.eqb d0 d1 then path_cmp p0 p1 else Z.compare d1 d0
  | _, _ => Lt
  end.

(** [expander.rs:1208-1261] [PartialOrd for GlobPath]. *)
Definition found_cmp (k : sort_key) (x y : found) : comparison :=
  let p := f_path x in
  let q := f_path y in
  match k with
  | ByCreated => time_cmp (created (f_meta x)) (created (f_meta y)) p q
  | ByModified => time_cmp (modified (f_meta x)) (modified (f_meta y)) p q
  | ByName => path_cmp p q
  | ByType =>
      if is_dir (f_meta x) && is_file (f_meta y) then Lt
      else if is_file (f_meta x) && is_dir (f_meta y) then Gt
      else match extension p, extension q with
           | Some e, Some e' => if beq e e' then path_cmp p q else bytes_cmp e e'
           | Some _, None => Gt
           | None, Some _ => Lt
           | None, None => path_cmp p q
           end
  | ByNone => Lt
  end.

(** [expander.rs:1164] [PathTypes]. *)
Inductive path_type := OnlyFiles | OnlyDirs | AnyPath.

Definition always_less {A} (cmp : A -> A -> comparison) (l : list A) : bool :=
  forallb (fun x => forallb (fun y => comparison_eqb (cmp x y) Lt) l) l.

(** The elements of a [BTreeSet] into which those of [l] were inserted one by
    one.  If the comparison is an order on them, the set is sorted.  If it
    always says [Less], as it does without a sort key, then each element goes
    to the front, since the search in a node of the tree begins there.  What
    else might come out is not specified by the standard library and is up to
    [e_unlisted]. *)
Definition bt_collect {A} (E : env) (cmp : A -> A -> comparison) (l : list A) : list A :=
  if is_order cmp l || always_less cmp l
  then fold_left (fun set x => bt_insert cmp x set) l []
  else let '(m, ks) := e_unlisted E (map (fun x => map (cmp x) l) l) in firstn m (arrange ks l).

(** [expander.rs:1269-1291] the matched paths that are inserted, in their
    order; [None] is a read error. *)
Fixpoint glob_entries (t : path_type) (l : list (option (bytes * option meta))) : res (option (list found)) :=
  match l with
  | [] => Ok (Some [])
  | None :: _ => Ok None
  | Some (p, None) :: _ => Panic PUnwrap
  | Some (p, Some m) :: l' =>
      let keep := match t with
                  | OnlyFiles => is_file m
                  | OnlyDirs => is_dir m
                  | AnyPath => true
                  end in
      let* o := glob_entries t l' in
      Ok (option_map (fun fs => if keep then Found p m :: fs else fs) o)
  end.
Definition glob_collect (E : env) (t : path_type) (k : sort_key) (l : list (option (bytes * option meta)))
  : res (option (list found)) :=
  let* o := glob_entries t l in
  Ok (option_map (bt_collect E (found_cmp k)) o).
