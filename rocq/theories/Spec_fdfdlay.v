(** Vocabulary for layers and materials together (C167). *)
From Coq Require Import Reals Arith.
From Verif Require Import Cx Arr Model_coupling Model_yee Model_fdfd Spec_yee Spec_fdfd Model_fdfdc Spec_fdfdc.
Local Open Scope R_scope.
(** A one-dimensional simulation of n cells of width w with layers of t cells at both ends (grading p, log-reflection lr, correction pe); the
    permittivity may be complex. *)
Definition layered (d : cfdfd) (n t p : nat) (lr pe w : R) : Prop :=
  cf_shape d = (fun a => match a with AX => n | _ => 1%nat end) /\ cf_bloch d = (fun _ => C1) /\
  (0 < p)%nat /\ lr < 0 /\ 0 < pe /\ 0 < cf_k0 d /\ 0 < w /\ (1 < t)%nat /\ (2 * t < n)%nat /\
  (forall x, cf_dxf d AX x = (RtoC w * scpml p lr (cf_k0 d) pe w n t false x)%C /\ cf_dxb d AX x = (RtoC w * scpml p lr (cf_k0 d) pe w n t true x)%C) /\
  (forall a x, a <> AX -> cf_dxf d a x = C1 /\ cf_dxb d a x = C1).
(** Materials whose permittivity has the sign that goes with the layers, and the opposite sign (the one that absorbs in Maxwell's equations as
    the returned fields satisfy them, C164). *)
Definition with_layers_sign (d : cfdfd) : Prop := forall i j k, in_grid (cf_shape d) i j k -> 0 < re (cf_eps d i j k) /\ im (cf_eps d i j k) <= 0.
(** An instance of the opposite sign: eleven cells of width 1, layers of four cells with the default parameters (4, -16, 1), k0 = 1, permittivity
    about 1.285 + 0.407 i in every cell.  First the averages over neighbouring cells, then the cells. *)
(** Mean of the permittivities of cells m - 1 and m. *)
Definition pair_mean (m : nat) : C := match m with
  | 0%nat => mkC (22213098000719942837248278 / 17273246470669334375823829) (6501972904415409706104680 / 17273246470669334375823829)
  | 1%nat => mkC (315473911527723417647175456 / 245665010571928960902311225) (97644493924089992236015128 / 245665010571928960902311225)
  | 2%nat => mkC (11485879662423404457 / 8925041469093745000) (361101754394845083 / 892504146909374500)
  | 3%nat => mkC (23004466935704736062688 / 17914341996284473233913) (7368098822684654688000 / 17914341996284473233913)
  | 4%nat => mkC (41849959881 / 32766066034) (14099409815 / 32766066034)
  | 5%nat => mkC (576 / 451) (182 / 451)
  | 6%nat => mkC (35 / 27) (11 / 27)
  | 7%nat => mkC (3088 / 2405) (971 / 2405)
  | 8%nat => mkC (51357141975520 / 39904468304489) (16310092652800 / 39904468304489)
  | 9%nat => mkC (585171883066314144027 / 453598272775251544100) (185300566657412634029 / 453598272775251544100)
  | _ => mkC (6214971341768296553686259684 / 4824988194505197477089433125) (2037460360131365282333379712 / 4824988194505197477089433125)
  end.
Definition cell0 : C := (pair_mean 0 + pair_mean 1 - pair_mean 2 + pair_mean 3 - pair_mean 4 + pair_mean 5 - pair_mean 6 + pair_mean 7 - pair_mean 8 + pair_mean 9 - pair_mean 10)%C.
Fixpoint cell (m : nat) : C := match m with O => cell0 | S m' => (RtoC 2 * pair_mean m - cell m')%C end.
Definition amplified : cfdfd := mkCfdfd (fun a => match a with AX => 11 | _ => 1 end%nat)
  (fun a x => match a with AX => (RtoC 1 * scpml 4 (-16) 1 1 1 11 4 false x)%C | _ => C1 end)
  (fun a x => match a with AX => (RtoC 1 * scpml 4 (-16) 1 1 1 11 4 true x)%C | _ => C1 end) (fun _ => C1) 1 (fun i _ _ => cell i).
(** The same line filled with a material of the layers' sign. *)
Definition damped : cfdfd := mkCfdfd (cf_shape amplified) (cf_dxf amplified) (cf_dxb amplified) (cf_bloch amplified) 1 (fun i _ _ => mkC 2 (- (1 / 2))).
Definition at_cell0 : fld := fun i j k => match i with O => C1 | _ => C0 end.
