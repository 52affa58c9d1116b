(** * Specification of [%namespace], [%include] and [%embed] *)

From Coq Require Import String List Ascii Bool Arith Sorted.
From Verif Require Import Text Res Ast Env Scope State Paths Expander Spec_args Spec_expand Spec_builtin.
Import ListNotations.

(** [final] is [outer] with the definitions of [inner] added under prefixed
    names. *)
Definition imported (prefix : bytes) (inner outer final : scope) : Prop :=
  (forall k m, get k inner = Some m -> get (prefix ++ k) final = Some m) /\
  (forall k, (forall k', k = prefix ++ k' -> get k' inner = None) -> get k final = get k outer).

(** The keyword arguments in front, and what comes after them. *)
Fixpoint front_keywords (ns : list node) : list node :=
  match ns with
  | Attr k v st w :: ns' => Attr k v st w :: front_keywords ns'
  | _ => []
  end.
Fixpoint after_keywords (ns : list node) : list node :=
  match ns with
  | Attr _ _ _ _ :: ns' => after_keywords ns'
  | _ => ns
  end.

(** The options of [%namespace]. *)
Definition is_separator (k : bytes) (v : node) : Prop := k = b "separator" /\ literal v.

(** Where a file may be: in each directory in turn, and for [%include] also
    with the extension added. *)
Definition candidates (sex : bool) (dirs : list bytes) (path : bytes) : list bytes :=
  flat_map (fun d => path_join d path ::
      (if sex then match with_sex (path_join d path) with Some q => [q] | None => [] end
       else [])) dirs.

(** [p], with contents [text], is the first of the files that can be read. *)
Definition first_readable (E : env) (ps : list bytes) (p text : bytes) : Prop :=
  exists before after, ps = before ++ p :: after /\
    Forall (fun q => e_read E q = None) before /\ e_read E p = Some text.
Definition none_readable (E : env) (ps : list bytes) : Prop :=
  Forall (fun q => e_read E q = None) ps.

(** Paths that compare equal. *)
Definition same_path (p q : bytes) : Prop := path_cmp p q = Eq.

(** A file name: no slash, and neither empty nor one of the special names. *)
Definition plain_name (name : bytes) : Prop :=
  Forall (fun c => c <> "/"%char) name /\ ~ In name [[]; b "."; b ".."].

(** A directory without superfluous trailing parts. *)
Definition tidy_dir (dir : bytes) : Prop :=
  dir <> [] /\ (forall d, dir <> d ++ b "/") /\ (forall d, dir <> d ++ b "/.").
