(** Vocabulary for C46, C48, C50, C55, C64-C67. *)
From Coq Require Import Reals List Arith ZArith Bool Sorted.
From Verif Require Import Cx Arr Model_parse.
Import ListNotations.
Local Open Scope R_scope.

(** typing.py Excitation = Union[str, Tuple[str, int], Dict[str, List[int]], Iterable[Union[str, Tuple[str, int]]]] *)
Inductive item := IName (s : nat) | IPair (s : nat) (i : Z).
Inductive excitation := EItem (x : item) | EList (l : list item) | EDict (d : list (nat * list Z)).
Definition item_py (x : item) : pyv := match x with IName s => VStr s | IPair s i => VSeq [VStr s; VInt i] end.
Definition to_py (e : excitation) : pyv :=
  match e with
  | EItem x => item_py x
  | EList l => VSeq (map item_py l)
  | EDict d => VDict (map (fun kv => (VStr (fst kv), map VInt (snd kv))) d)
  end.
(** what it means *)
Definition item_meaning (x : item) : pyv * pyv := match x with IName s => (VStr s, VInt 0) | IPair s i => (VStr s, VInt i) end.
Definition meaning (e : excitation) : list (pyv * pyv) :=
  match e with
  | EItem x => [item_meaning x]
  | EList l => map item_meaning l
  | EDict d => flat_map (fun kv => map (fun i => (VStr (fst kv), VInt i)) (snd kv)) d
  end.
(** The three shapes that raise: an empty list, a list of one bare name, a dictionary with an empty index list. *)
Definition degenerate (e : excitation) : Prop :=
  match e with
  | EItem _ => False
  | EList l => l = [] \/ exists s, l = [IName s]
  | EDict d => exists s, In (s, []) d
  end.

(** get_measure_fn as documented: one entry per measured (port, mode), with that port's polarity. *)
Definition measured_correctly (pos : nat -> bool) (measure : list (nat * nat)) (r : list ((nat * nat) * bool)) : Prop :=
  r = map (fun pm => (pm, pos (fst pm))) measure.
(** possible iteration orders of the set of ports *)
Definition set_order (measure : list (nat * nat)) (order : list nat) : Prop :=
  NoDup order /\ forall p, In p order <-> In p (map fst measure).

(** the eigenvalues with positive real part come first *)
Definition guided_first {V} (l : list (C * V)) : Prop :=
  exists a b, l = a ++ b /\ Forall (fun p => 0 < re (fst p)) a /\ Forall (fun p => re (fst p) <= 0) b.
(** decreasing propagation constants *)
Definition desc {V} (p q : C * V) : Prop := sqrt (re (fst q)) <= sqrt (re (fst p)).

(** Pardiso histories: the matrices an operation mentions; right-hand sides of the right length. *)
Definition pop_mat (o : pop) : list smat := match o with Solve m _ | Factor m => [m] | Free => [] end.
Definition sized (o : pop) : Prop := match o with Solve m k => k = s_n m | _ => True end.
(** The answer a call should give: it depends on nothing but its own matrix. *)
Definition answer (sing : smat -> bool) (o : pop) : pres :=
  match o with Solve m _ => if sing m then Raise else SolOf m | Factor m => if sing m then Raise else Done | Free => Done end.
