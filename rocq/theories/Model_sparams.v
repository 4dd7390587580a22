(** Model of FDFD.sparams (simphox/fdfd.py:299-316) on top of the port bookkeeping of Model_parse.  No proofs in this file.
    Simplifications: port names are numbers; the fields and the overlap integrals are summarised by [amp]: the amplitudes (forward, backward)
    that a mode of a port measures in the solved fields (mode.py:522-543, Model_adj.measure); division by zero is left as Cdiv. *)
From Coq Require Import Reals List Arith ZArith Bool.
From Verif Require Import Cx Arr Model_parse Model_mode.
Import ListNotations.

(** The forms of measure_info: typing.py Excitation (a name, a pair, a list of names or of pairs, a dictionary) or None. *)
Inductive minfo := MDefault | MPairs (l : list (nat * nat)) | MNames (l : list nat) | MDict (d : list (nat * list nat)) | MName (p : nat) | MPair (p m : nat).
Inductive sperr := EIndex | EType | EKey | EAttribute | EValue.
Inductive spres := SpOk (l : list C) | SpRaise (e : sperr).
Definition pair_py (pm : nat * nat) : pyv := VSeq [VStr (fst pm); VInt (Z.of_nat (snd pm))].
Definition minfo_py (i : minfo) : pyv :=
  match i with
  | MDefault => VSeq [] (* not used *)
  | MPairs l => VSeq (map pair_py l)
  | MNames l => VSeq (map VStr l)
  | MDict d => VDict (map (fun kv => (VStr (fst kv), map (fun m => VInt (Z.of_nat m)) (snd kv))) d)
  | MName p => VStr p
  | MPair p m => pair_py (p, m)
  end.
Definition py_pair (x : pyv * pyv) : nat * nat := match x with (VStr s, VInt z) => (s, Z.to_nat z) | _ => (O, O) end.
(** sim.py:192-193 parse_excitation(excitation), then iterated over (sim.py:143): None is a TypeError. *)
Definition parsed (ports : list nat) (i : minfo) : (list (nat * nat)) + sperr :=
  match i with
  | MDefault => inl (map (fun p => (p, O)) ports)
  | _ => match parse_excitation 3 (minfo_py i) with
         | Ok l => inl (map py_pair l)
         | IndexErr => inr EIndex
         | _ => inr EType
         end
  end.
Definition is_port (ports : list nat) (p : nat) : bool := existsb (Nat.eqb p) ports.
(** sim.py:143-150 port_modes: a port that is not in the grid is a KeyError; mode.py:239 a cross section without guided modes an IndexError
    (self.modes[0]).  [found p]: number of guided modes of port p. *)
Definition port_modes_err (ports : list nat) (found : nat -> nat) (names : list nat) : option sperr :=
  if forallb (is_port ports) names then (if forallb (fun p => Nat.ltb 0 (found p)) names then None else Some EIndex) else Some EKey.
(** sim.py:219 io.measure_fn(m): a mode beyond those found is an IndexError. *)
Definition measurable (found : nat -> nat) (l : list (nat * nat)) : bool := forallb (fun pm => Nat.ltb (snd pm) (found (fst pm))) l.
(** sim.py:171-190 port_source({(port, mode): 1}): modes of all ports, one each; betas[mode] *)
Definition source_err (ports : list nat) (found : nat -> nat) (src : nat * nat) : option sperr :=
  match port_modes_err ports found ports with
  | Some e => Some e
  | None => if is_port ports (fst src) then (if Nat.ltb (snd src) (Nat.min 1 (found (fst src))) then None else Some EIndex) else Some EKey
  end.
(** fdfd.py:315 measure_info.index((port_name, mode_idx)); measure_info is what the caller passed, not its parsed form. *)
Definition info_index (ports : list nat) (i : minfo) (src : nat * nat) : nat + sperr :=
  match i with
  | MDefault => match index_of (map (fun p => (p, O)) ports) src with Some n => inl n | None => inr EValue end
  | MPairs l => match index_of l src with Some n => inl n | None => inr EValue end
  | MNames _ => inr EValue            (* a name is not equal to a pair *)
  | MPair _ _ => inr EValue           (* ('a', 0).index(('a', 0)) *)
  | MName _ => inr EType              (* 'a'.index(('a', 0)): must be str *)
  | MDict _ => inr EAttribute         (* dict has no index *)
  end.
(** sim.py:224-226: row 0 of the result is s_out, row 1 s_in; [::-1] exchanges them for ports at 180 degrees and more. *)
Definition out_in (amp : nat * nat -> C * C) (e : (nat * nat) * bool) : C * C :=
  if snd e then amp (fst e) else (snd (amp (fst e)), fst (amp (fst e))).
(** fdfd.py:299-316.  [order]: iteration order of the set of measured ports (sim.py:144); [pos p]: np.mod(angle, 360) < 180. *)
Definition sparams (ports : list nat) (found : nat -> nat) (pos : nat -> bool) (order : list nat) (amp : nat * nat -> C * C)
  (i : minfo) (src : nat * nat) : spres :=
  match parsed ports i with
  | inr e => SpRaise e
  | inl l =>
    match port_modes_err ports found (map fst l) with
    | Some e => SpRaise e
    | None =>
      if measurable found l then
        match source_err ports found src with
        | Some e => SpRaise e
        | None =>
          match info_index ports i src with
          | inr e => SpRaise e
          | inl n =>
            let s := map (out_in amp) (measure_entries pos l order) in
            match nth_error s n with
            | None => SpRaise EIndex
            | Some d => SpOk (map (fun x => (fst x / snd d)%C) s)
            end
          end
        end
      else SpRaise EIndex
    end
  end.
