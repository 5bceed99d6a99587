(** Specifications for C93 and C94. *)
From Coq Require Import Ascii.
From Verif Require Import Base Utils.
Open Scope string_scope.
Open Scope list_scope.
Open Scope R_scope.

(** no slash in the string *)
Fixpoint slash_free (s : string) : Prop := match s with EmptyString => True | String c r => c <> "/"%char /\ slash_free r end.
(** [q] is [p] or lies below it *)
Definition inside (p q : path) : Prop := exists r, q = p ++ r.
(** there is a root directory, and whatever exists lies in a directory *)
Definition fs_ok (f : fsys) : Prop := f nil = Some DirNode /\ forall p c, f (p ++ c :: nil) <> None -> f p = Some DirNode.
(** a file stands at [p] or on the way to it *)
Definition blocked (f : fsys) (p : path) : Prop := exists q, inside q p /\ f q = Some FileNode.
(** [f'] is [f] with an empty directory at [p], and the directories leading there *)
Definition fresh_dir (f : fsys) (p : path) (f' : fsys) : Prop :=
  forall q, (inside q p -> f' q = Some DirNode) /\
            (inside p q -> q <> p -> f' q = None) /\
            (~ inside q p -> ~ inside p q -> f' q = f q).

(** two numbers that agree up to the relative tolerance; NaN agrees with nothing *)
Definition agree (rtol : R) (a b : num) : Prop := match a, b with Some u, Some v => Rabs (u - v) <= rtol * Rabs v | _, _ => False end.
(** [v] is compared *)
Definition within (range : option (num * num)) (v : num) : Prop :=
  match range with
  | None => True
  | Some (Some lo, Some hi) => exists t, v = Some t /\ lo <= t <= hi
  | Some _ => False
  end.
