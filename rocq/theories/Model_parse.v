(** Model of simphox/parse.py, the port bookkeeping of simphox/sim.py, the mode ordering of simphox/mode.py and the
    factorisation cache of simphox/mkl.py.  No proofs in this file. *)
From Coq Require Import Reals List Arith ZArith Bool.
From Verif Require Import Cx Arr.
Import ListNotations.
Local Open Scope R_scope.

(** ** parse.py.  Python values that occur in excitations; port names are opaque strings (numbers here). *)
Inductive pyv := VStr (s : nat) | VInt (z : Z) | VSeq (l : list pyv) | VDict (d : list (pyv * list pyv)).
Inductive presult := Ok (l : list (pyv * pyv)) | RNone | IndexErr | TypeErr | NoFuel.
(** sum([...], []): an exception raised while the list is built wins; adding None to a list is a TypeError. *)
Fixpoint collect (rs : list presult) : presult :=
  match rs with
  | [] => Ok []
  | IndexErr :: _ => IndexErr | TypeErr :: _ => TypeErr | NoFuel :: _ => NoFuel
  | r :: rest => match collect rest with
      | Ok l => match r with Ok l' => Ok (l' ++ l)%list | _ => TypeErr end
      | RNone => TypeErr | e => e
      end
  end.
Definition is_name (v : pyv) : bool := match v with VStr _ | VInt _ => true | _ => false end.
Definition is_int (v : pyv) : bool := match v with VInt _ => true | _ => false end.
(** parse.py:4-21; [fuel] bounds the recursion depth (Python has none to speak of). *)
Fixpoint parse_excitation (fuel : nat) (v : pyv) : presult :=
  match fuel with
  | O => NoFuel
  | S f =>
    match v with
    | VStr s => Ok [(VStr s, VInt 0)]
    | VInt _ => RNone
    | VSeq l =>
        match l with
        | [] => IndexErr
        | [a] => if is_name a then IndexErr else collect (map (parse_excitation f) l)
        | [a; b] => if (is_name a && is_int b)%bool then Ok [(a, b)] else collect (map (parse_excitation f) l)
        | _ => collect (map (parse_excitation f) l)
        end
    | VDict d => collect (map (fun e => parse_excitation f (VSeq (map (fun idx => VSeq [fst e; idx]) (snd e)))) d)
    end
  end.

(** ** sim.py:153-190 port_source: resolution of the source dictionary.  Keys are (port, mode) pairs or port names.
    `port, mode = port_mode` unpacks a name into its characters.  [names]: the grid's ports (character lists).
    The mode library is computed for one mode per port (port_modes with the default excitation, one mode each), of which
    [found p] are guided (0 or 1); betas[mode] is an IndexError beyond. *)
Inductive skey := KPair (p : list nat) (m : nat) | KName (p : list nat).
Inductive sres := SOk (l : list (list nat * nat * R)) | SValueErr | SKeyErr | SIndexErr.
Definition name_eqb (a b : list nat) : bool := if list_eq_dec Nat.eq_dec a b then true else false.
Definition resolve1 (names : list (list nat)) (found : list nat -> nat) (k : skey) (w : R) : sres :=
  match k with
  | KPair p m => if existsb (name_eqb p) names then (if Nat.ltb m (Nat.min 1 (found p)) then SOk [(p, m, w)] else SIndexErr) else SKeyErr
  | KName [c; m] => if existsb (name_eqb [c]) names then SIndexErr else SKeyErr
  | KName _ => SValueErr
  end.
Fixpoint resolve (names : list (list nat)) (found : list nat -> nat) (src : list (skey * R)) : sres :=
  match src with
  | [] => SOk []
  | (k, w) :: rest => match resolve1 names found k w with
      | SOk l => match resolve names found rest with SOk l' => SOk (l ++ l')%list | e => e end
      | e => e
      end
  end.

(** ** sim.py:195-230 get_measure_fn.  [measure]: the parsed measure list (port, mode); [order]: iteration order of the
    Python set of its ports (sim.py:144); [pos p]: np.mod(angle, 360) < 180.  Entry i of the result: which (port, mode) is
    measured and with which polarity; there are as many entries as distinct ports. *)
Definition measure_entries (pos : nat -> bool) (measure : list (nat * nat)) (order : list nat) : list ((nat * nat) * bool) :=
  map (fun i => (nth i measure (O, O), pos (nth i order O))) (seq 0 (length order)).

(** ** mode.py:185-206 ModeSolver.solve after the eigensolver: eigenvalues (real and imaginary parts) with their vectors. *)
Section Modes.
Variable V : Type.
Notation pair := (C * V)%type.
(** np.where(eigvals.real > 0)[0] *)
Fixpoint useful_from (i : nat) (l : list pair) : list nat :=
  match l with [] => [] | p :: rest => if Rlt_dec 0 (re (fst p)) then i :: useful_from (S i) rest else useful_from (S i) rest end.
Definition useful (l : list pair) : list nat := useful_from 0 l.
Definition guided (l : list pair) : list pair := filter (fun p => if Rlt_dec 0 (re (fst p)) then true else false) l.
(** np.argsort(np.sqrt(eigvals.real))[::-1]: decreasing in sqrt(real part). *)
Fixpoint insert_desc (p : pair) (l : list pair) : list pair :=
  match l with
  | [] => [p]
  | q :: rest => if Rle_dec (sqrt (re (fst q))) (sqrt (re (fst p))) then p :: l else q :: insert_desc p rest
  end.
Definition sort_desc (l : list pair) : list pair := fold_right insert_desc [] l.
(** eigvals[useful_modes] on the already filtered and sorted array: None = IndexError. *)
Fixpoint fancy (l : list pair) (idx : list nat) : option (list R) :=
  match idx with
  | [] => Some []
  | i :: rest => match nth_error l i, fancy l rest with Some p, Some r => Some (sqrt (re (fst p)) :: r) | _, _ => None end
  end.
Definition mode_solve (l : list pair) : option (list R * list V) :=
  let s := sort_desc (guided l) in match fancy s (useful l) with Some b => Some (b, map snd s) | None => None end.
End Modes.

(** ** mkl.py:77-201 Pardiso.  A CSR matrix: size and stored entries in order. *)
Definition triple := (nat * nat * C)%type.
Record smat := mkS { s_n : nat; s_entries : list triple }.
(** str(mat) (scipy): all entries, or the first and last 25 when there are more than 50. *)
Definition shown := (list triple * option (list triple))%type.
Definition str_mat (m : smat) : shown :=
  let l := s_entries m in
  if Nat.ltb 50 (length l) then (firstn 25 l, Some (skipn (length l - 25) l)) else (l, None).
(** State: _mat_hash (the hashed string; None = 0, hash collisions ignored), self.n, and the matrix whose factors MKL holds. *)
Record pstate := mkP { p_hash : option shown; p_n : nat; p_fact : option smat }.
Definition p_init : pstate := mkP None 0 None.
Inductive pop := Solve (m : smat) (rhs : nat) | Factor (m : smat) | Free.
Inductive pres := SolOf (m : smat) | Done | Raise.
(** equality of displayed strings (a decision procedure, not a property) *)
Definition shown_dec : forall a b : shown, {a = b} + {a <> b}.
Proof.
  assert (TD : forall x y : triple, {x = y} + {x <> y}).
  { intros [[a b] [x y]] [[a' b'] [x' y']]. destruct (Nat.eq_dec a a'); [| right; congruence]. destruct (Nat.eq_dec b b'); [| right; congruence].
    destruct (Req_EM_T x x'); [| right; congruence]. destruct (Req_EM_T y y'); [| right; congruence]. left; congruence. }
  intros [a b] [a' b']. destruct (list_eq_dec TD a a'); [| right; congruence]. destruct b as [b |], b' as [b' |]; try (right; congruence); [| left; congruence].
  destruct (list_eq_dec TD b b'); [left; congruence | right; congruence].
Defined.
Definition same_str (h : option shown) (m : smat) : bool :=
  match h with None => false | Some s => if shown_dec s (str_mat m) then true else false end.
(** [sing m]: MKL cannot factorise m (error or perturbed pivots; its factors are then gone).  Phase 33 without factors is an error. *)
Definition pstep (sing : smat -> bool) (st : pstate) (o : pop) : pstate * pres :=
  match o with
  | Solve m rhs =>
      if same_str (p_hash st) m then
        if Nat.eqb rhs (p_n st) then match p_fact st with Some f => (st, SolOf f) | None => (st, Raise) end else (st, Raise)
      else
        if Nat.eqb rhs (s_n m) then
          if sing m then (mkP (Some (str_mat m)) (s_n m) None, Raise) else (mkP (Some (str_mat m)) (s_n m) (Some m), SolOf m)
        else (mkP (Some (str_mat m)) (s_n m) (p_fact st), Raise)
  | Factor m => if sing m then (mkP (Some (str_mat m)) (s_n m) None, Raise) else (mkP (Some (str_mat m)) (s_n m) (Some m), Done)
  | Free => match p_hash st with None => (st, Raise) | Some _ => (mkP (p_hash st) (p_n st) None, Done) end
  end.
Fixpoint prun (sing : smat -> bool) (st : pstate) (ops : list pop) : pstate * list pres :=
  match ops with
  | [] => (st, [])
  | o :: rest => let '(st1, r) := pstep sing st o in let '(st2, rs) := prun sing st1 rest in (st2, r :: rs)
  end.
