(** Shared vocabulary of the model: results, boolean comparisons on reals,
    numpy-like list helpers.  No agnpy code is modelled in this file except
    where a comment cites a numpy primitive used throughout /repo. *)
From Coq Require Export String Reals ZArith PeanoNat Bool List Lia Lra Psatz Permutation.
Export ListNotations.
Open Scope R_scope.

(** Python exceptions that the modelled code can raise, plus two model-only
    outcomes: [NonFinite] (Python goes on with inf/nan values) and [NaNRate]
    (a NaN placeholder rate reaches a computation). *)
Inductive exn : Type :=
| ValueError (msg : string)
| TypeError (msg : string)
| IndexError
| KeyError
| NameError
| AttributeError
| UnboundLocalError
| ZeroDivisionError
| CollapseError
| UserError (code : nat)
| NonFinite
| NaNRate
| OutOfFuel.

(** outcome of a Python call: a value, or the exception raised (no code of its own) *)
Inductive res (A : Type) : Type :=
| Ok (a : A)
| Err (e : exn).
Arguments Ok {A} a.
Arguments Err {A} e.

(** sequencing of Python statements: an exception ends the rest (no code of its own) *)
Definition bind {A B : Type} (x : res A) (f : A -> res B) : res B :=
  match x with Ok a => f a | Err e => Err e end.

Declare Scope res_scope.
Delimit Scope res_scope with res.
Notation "'let!' x ':=' e 'in' k" := (bind e (fun x => k))
  (at level 200, x pattern, e at level 100, k at level 200, right associativity) : res_scope.
Open Scope res_scope.

(** a total function of the value of a Python call (no code of its own) *)
Definition rmap {A B : Type} (f : A -> B) (x : res A) : res B :=
  match x with Ok a => Ok (f a) | Err e => Err e end.

(** [mapM]: run [f] on every element, first error wins (a Python list
    comprehension whose body may raise). *)
Fixpoint mapM {A B : Type} (f : A -> res B) (l : list A) : res (list B) :=
  match l with
  | [] => Ok []
  | a :: l' => let! b := f a in let! bs := mapM f l' in Ok (b :: bs)
  end.

(** Boolean comparisons on reals (the float comparisons of the code). *)
(** Python's < on floats *)
Definition Rltb (x y : R) : bool := if Rlt_dec x y then true else false.
(** Python's <= on floats *)
Definition Rleb (x y : R) : bool := if Rle_dec x y then true else false.
(** Python's == on floats *)
Definition Reqb (x y : R) : bool := if Req_EM_T x y then true else false.

Lemma Rltb_true x y : Rltb x y = true <-> x < y.
Proof. unfold Rltb; destruct (Rlt_dec x y); split; intros; auto; discriminate. Qed.
Lemma Rltb_false x y : Rltb x y = false <-> y <= x.
Proof. unfold Rltb; destruct (Rlt_dec x y); split; intros; auto; try discriminate; lra. Qed.
Lemma Rleb_true x y : Rleb x y = true <-> x <= y.
Proof. unfold Rleb; destruct (Rle_dec x y); split; intros; auto; discriminate. Qed.
Lemma Rleb_false x y : Rleb x y = false <-> y < x.
Proof. unfold Rleb; destruct (Rle_dec x y); split; intros; auto; try discriminate; lra. Qed.
Lemma Reqb_true x y : Reqb x y = true <-> x = y.
Proof. unfold Reqb; destruct (Req_EM_T x y); split; intros; auto; discriminate. Qed.
Lemma Reqb_false x y : Reqb x y = false <-> x <> y.
Proof. unfold Reqb; destruct (Req_EM_T x y); split; intros; auto; try discriminate; contradiction. Qed.
Lemma Rltb_spec x y : reflect (x < y) (Rltb x y).
Proof. unfold Rltb; destruct (Rlt_dec x y); constructor; auto. Qed.
Lemma Rleb_spec x y : reflect (x <= y) (Rleb x y).
Proof. unfold Rleb; destruct (Rle_dec x y); constructor; auto. Qed.
Lemma Reqb_spec x y : reflect (x = y) (Reqb x y).
Proof. unfold Reqb; destruct (Req_EM_T x y); constructor; auto. Qed.

(** Elementwise binary operation on two arrays.  numpy raises on unequal
    lengths; [map2] truncates, and the alignment theorems (C06) show that the
    lengths are equal wherever the model uses it. *)
Fixpoint map2 {A B C : Type} (f : A -> B -> C) (l : list A) (m : list B) : list C :=
  match l, m with
  | a :: l', b :: m' => f a b :: map2 f l' m'
  | _, _ => []
  end.

(** numpy boolean-mask selection [l[mask]]. *)
Fixpoint select {A : Type} (mask : list bool) (l : list A) : list A :=
  match mask, l with
  | b :: mask', a :: l' => if b then a :: select mask' l' else select mask' l'
  | _, _ => []
  end.

(** numpy masked assignment [l[mask] = vals]: [vals] are consumed in order. *)
Fixpoint scatter {A : Type} (mask : list bool) (l vals : list A) : list A :=
  match mask, l with
  | b :: mask', a :: l' =>
      if b then match vals with
                | v :: vals' => v :: scatter mask' l' vals'
                | [] => a :: scatter mask' l' []
                end
      else a :: scatter mask' l' vals
  | _, _ => l
  end.

(** Python/numpy integer indexing: a negative index counts from the end,
    an index out of range raises IndexError. *)
Definition py_get {A : Type} (l : list A) (i : Z) : res A :=
  let n := Z.of_nat (length l) in
  let j := (if i <? 0 then i + n else i)%Z in
  if ((j <? 0) || (n <=? j))%Z then Err IndexError
  else match nth_error l (Z.to_nat j) with Some a => Ok a | None => Err IndexError end.

(** numpy fancy indexing [l[idx]]. *)
Definition take_idx {A : Type} (l : list A) (idx : list Z) : res (list A) :=
  mapM (py_get l) idx.

(** [np.arange n] as indices. *)
Definition arange (n : nat) : list Z := map Z.of_nat (seq 0 n).

(** np.sum of a 1-d array, up to rounding (used for np.mean, _time_evolution_utils.py L209-211)
    *)
Definition Rsum (l : list R) : R := fold_right Rplus 0 l.

(** an array without NaN, as numbers (numpy has no such step; see [known] in TEUtils.v) *)
Fixpoint all_some {A : Type} (l : list (option A)) : option (list A) :=
  match l with
  | [] => Some []
  | Some a :: l' => match all_some l' with Some r => Some (a :: r) | None => None end
  | None :: _ => None
  end.

(** dictionaries as association lists (insertion order kept, as in Python) *)
Fixpoint lookup {A : Type} (k : string) (d : list (string * A)) : option A :=
  match d with
  | [] => None
  | (k', a) :: d' => if String.eqb k k' then Some a else lookup k d'
  end.
(** Python's [k in d] *)
Definition mem_key {A : Type} (k : string) (d : list (string * A)) : bool :=
  match lookup k d with Some _ => true | None => false end.
