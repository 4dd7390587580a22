(** Model of simphox/grid.py (Port, Grid, YeeGrid.pml_safe_placement, eps_t), simphox/utils.py Box and
    simphox/transform.py.  No proofs in this file.  Simplifications: exact real arithmetic. *)
From Coq Require Import Reals List Arith ZArith Bool.
From Verif Require Import Cx Arr Model_yee.
Import ListNotations.
Local Open Scope R_scope.

(** int(x) / astype(int): truncation towards zero. *)
Definition trunc_z (x : R) : Z := if Rle_dec 0 x then Int_part x else (- Int_part (- x))%Z.
(** np.around: to nearest, halves to even. *)
Definition around (x : R) : Z :=
  let f := Int_part x in let r := x - IZR f in
  if Rlt_dec r (1 / 2) then f else if Rlt_dec (1 / 2) r then (f + 1)%Z else if Z.even f then f else (f + 1)%Z.

(** Python slice(a, b) on an axis of n cells: is cell i selected?  Negative bounds count from the end, then clip. *)
Definition np_bound (n a : Z) : Z := Z.max 0 (Z.min n (if Z.ltb a 0 then a + n else a)).
Definition in_slice (n a b i : Z) : bool := (Z.leb (np_bound n a) i && Z.ltb i (np_bound n b))%bool.
(** Integer index: None = IndexError. *)
Definition np_index (n c : Z) : option Z :=
  if (Z.leb 0 c && Z.ltb c n)%bool then Some c else if (Z.leb (- n) c && Z.ltb c 0)%bool then Some (c + n)%Z else None.
Inductive sel := SSlice (a b : Z) | SIndex (c : Z).
Definition selected (n : Z) (s : sel) (i : Z) : option bool :=
  match s with
  | SSlice a b => Some (in_slice n a b i)
  | SIndex c => match np_index n c with None => None | Some m => Some (Z.eqb i m) end
  end.

(** grid.py:55-87 the grid: number of dimensions, spacing and cell count per axis (shape3 = 1, spacing3 = inf beyond ndim). *)
Record gridp := mkGrid { g_ndim : nat; g_spacing : axis -> R; g_shape : axis -> Z }.
Definition axis_nat (a : axis) : nat := match a with AX => 0 | AY => 1 | AZ => 2 end.
Definition real_axis (g : gridp) (a : axis) : bool := Nat.ltb (axis_nat a) (g_ndim g).
(** grid.py:67-69 *)
Definition grid_shape (ndim : nat) (size spacing : axis -> R) (a : axis) : Z :=
  if Nat.ltb (axis_nat a) ndim then around (size a / spacing a) else 1%Z.
(** np.around(v / spacing3).astype(int): v / inf = 0. *)
Definition pixels (g : gridp) (a : axis) (v : R) : Z := if real_axis g a then around (v / g_spacing g a) else 0%Z.
(** grid.py:180-211 slice, squeezed = True; one axis. *)
Definition slice_axis (g : gridp) (center size : axis -> R) (a : axis) : sel :=
  let c := pixels g a (center a) in let s := pixels g a (size a) in
  if Z.ltb 0 s then SSlice (c - s / 2) (c - s / 2 + s) else SIndex c.
(** grid.py:151-166 mask; None = IndexError. *)
Definition mask (g : gridp) (center size : axis -> R) (i j k : Z) : option bool :=
  match selected (g_shape g AX) (slice_axis g center size AX) i, selected (g_shape g AY) (slice_axis g center size AY) j,
        selected (g_shape g AZ) (slice_axis g center size AZ) k with
  | Some x, Some y, Some z => Some (x && y && z)%bool
  | _, _, _ => None
  end.
Definition zfld := Z -> Z -> Z -> R.
(** grid.py:133-149 set_eps *)
Definition set_eps (g : gridp) (center size : axis -> R) (eps : R) (e : zfld) (i j k : Z) : option R :=
  match mask g center size i j k with Some b => Some (if b then eps else e i j k) | None => None end.
(** grid.py:261-278 mask_fn *)
Definition mask_fn (g : gridp) (center size : axis -> R) (rho_init rho : zfld) (i j k : Z) : option R :=
  match mask g center size i j k with
  | Some b => let m := if b then 1 else 0 in Some (rho_init i j k * (1 - m) + rho i j k * m)
  | None => None
  end.
(** grid.py:89-104 fill: [l] = index along the last axis, [n] cells there. *)
Definition fill_last (n : Z) (spacing height eps : R) (e : Z -> R) (l : Z) : R :=
  if Rlt_dec 0 height then (if in_slice n 0 (trunc_z (height / spacing)) l then eps else e l) else eps.

(** grid.py:120-122 the bounds check of add: `not b0 >= 0 and b1 >= 0 and b2 <= sx and b3 <= sy`; true = raises. *)
Definition leb (x y : R) : bool := if Rle_dec x y then true else false.
Definition add_raises (b0 b1 b2 b3 sx sy : R) : bool := (negb (leb 0 b0) && leb 0 b1 && leb b2 sx && leb b3 sy)%bool.

(** grid.py:46-50 Port.size; np.mod for a positive modulus; None = ValueError. *)
Definition fmod (x m : R) : R := x - m * IZR (Int_part (x / m)).
Definition port_size (a w h : R) : option (R * R * R) :=
  if Req_EM_T (fmod a 90) 0 then Some (if Req_EM_T (fmod a 180) 0 then (0, w, h) else (w, 0, h)) else None.

(** grid.py:447-462 pml_safe_placement along one axis; [t] = pml_shape there, None without PML. *)
Definition pml_len (t : option Z) (pml_sep : Z) (spacing : R) : R :=
  match t with None => 0 | Some t => IZR (t + pml_sep) * spacing end.
Definition safe1 (t : option Z) (pml_sep : Z) (size spacing x : R) : R :=
  let pml := pml_len t pml_sep spacing in Rmin (Rmax x pml) (size - spacing - pml).

(** ** grid.py:464-473 eps_t under functools.lru_cache: the first value computed is kept for the object.
    State: current permittivity, cached average.  Operations: read eps_t; change eps (fill, add, set_eps). *)
Record estate := mkE { s_eps : rfld; s_cache : option (axis -> rfld) }.
Inductive eop := EWrite (f : rfld -> rfld) | ERead.
Definition estep (s : shape3) (st : estate) (o : eop) : estate :=
  match o with
  | EWrite f => mkE (f (s_eps st)) (s_cache st)
  | ERead => match s_cache st with Some _ => st | None => mkE (s_eps st) (Some (yee_avg s (s_eps st))) end
  end.
Definition eread (s : shape3) (st : estate) : axis -> rfld :=
  match s_cache st with Some v => v | None => yee_avg s (s_eps st) end.

(** ** utils.py:67-141 Box *)
Record box := mkBox { b_size : R * R; b_min : R * R; b_spacing : R }.
Definition b_max (b : box) : R * R := (fst (b_min b) + fst (b_size b), snd (b_min b) + snd (b_size b)).
Definition b_center (b : box) : R * R := (fst (b_min b) + fst (b_size b) / 2, snd (b_min b) + snd (b_size b) / 2).
Definition translate (dx dy : R) (b : box) : box := mkBox (b_size b) (fst (b_min b) + dx, snd (b_min b) + dy) (b_spacing b).
(** A target: another box or a point / coordinate. *)
Definition align_to (c : R * R) (b : box) : box := translate (fst c - fst (b_center b)) (snd c - snd (b_center b)) b.
Definition align (c b : box) : box := align_to (b_center c) b.
Definition halign_to (p : R) (left : bool) (b : box) : box := translate (p - (if left then fst (b_min b) else fst (b_max b))) 0 b.
Definition halign (c : box) (left opposite : bool) (b : box) : box :=
  halign_to (if (left && negb opposite || opposite && negb left)%bool then fst (b_min c) else fst (b_max c)) left b.
Definition valign_to (p : R) (bottom : bool) (b : box) : box := translate 0 (p - (if bottom then snd (b_min b) else snd (b_max b))) b.
Definition valign (c : box) (bottom opposite : bool) (b : box) : box :=
  valign_to (if (bottom && negb opposite || opposite && negb bottom)%bool then snd (b_min c) else snd (b_max c)) bottom b.
(** utils.py:91-99, 107-108, 114-117 min_i, max_i, slice, mask (array of n x m pixels). *)
Definition b_mask (b : box) (n m i j : Z) : bool :=
  (in_slice n (trunc_z (fst (b_min b) / b_spacing b)) (trunc_z (fst (b_max b) / b_spacing b)) i &&
   in_slice m (trunc_z (snd (b_min b) / b_spacing b)) (trunc_z (snd (b_max b) / b_spacing b)) j)%bool.

(** ** transform.py *)
Definition arr2 := Z -> Z -> R.
(** transform.py:61-74 get_mask_fn, one box and several. *)
Definition masks_sum (bs : list box) (n m i j : Z) : R := fold_right (fun b acc => (if b_mask b n m i j then 1 else 0) + acc) 0 bs.
Definition get_mask_fn1 (rho_init : arr2) (b : box) (n m : Z) (rho : arr2) (i j : Z) : R :=
  let k := if b_mask b n m i j then 1 else 0 in rho_init i j * (1 - k) + rho i j * k.
Definition get_mask_fn (rho_init : arr2) (bs : list box) (n m : Z) (rho : arr2) (i j : Z) : R :=
  let k := if Rlt_dec 0 (masks_sum bs n m i j) then 1 else 0 in rho_init i j * (1 - k) + rho i j * k.
(** transform.py:36-58 get_symmetry_fn on an n x m array. *)
Definition ortho_x_fn (avg : bool) (n : Z) (x : arr2) : arr2 := fun i j =>
  if avg then (x i j + x (n - 1 - i)%Z j) / 2
  else if in_slice n (- (n / 2 + 1)) n i then x (n - 1 - i)%Z j else x i j.
Definition ortho_y_fn (avg : bool) (m : Z) (x : arr2) : arr2 := fun i j =>
  if avg then (x i j + x i (m - 1 - j)%Z) / 2
  else if in_slice m (- (m / 2 + 1)) m j then x i (m - 1 - j)%Z else x i j.
Definition transpose_fn (x : arr2) : arr2 := fun i j => (x i j + x j i) / 2.
Definition anti_fn (n : Z) (x : arr2) : arr2 := fun i j => (x i j + x (n - 1 - j)%Z (n - 1 - i)%Z) / 2.
Definition symmetry_fn (ox oy dp dn avg : bool) (n m : Z) (x : arr2) : arr2 :=
  let y := if oy then ortho_y_fn avg m x else x in
  let y := if ox then ortho_x_fn avg n y else y in
  let y := if dp then transpose_fn y else y in
  if dn then anti_fn n y else y.
(** transform.py:22-33 get_smooth_fn: skimage.draw.disk((r, r), r + 1) = pixels at squared distance < (r + 1)^2 from the
    centre; 'same' convolution pads with zeros; the kernel is symmetric. *)
Definition in_disk (r : nat) (a b : nat) : bool :=
  Z.ltb ((Z.of_nat a - Z.of_nat r) * (Z.of_nat a - Z.of_nat r) + (Z.of_nat b - Z.of_nat r) * (Z.of_nat b - Z.of_nat r))
        ((Z.of_nat r + 1) * (Z.of_nat r + 1)).
Definition disk_sum (r : nat) : R := Rsum (2 * r + 1) (fun a => Rsum (2 * r + 1) (fun b => if in_disk r a b then 1 else 0)).
Definition kernel (r a b : nat) : R := (if in_disk r a b then 1 else 0) / disk_sum r.
Definition padded (n m : Z) (x : arr2) : arr2 := fun i j =>
  if (Z.leb 0 i && Z.ltb i n && Z.leb 0 j && Z.ltb j m)%bool then x i j else 0.
Definition conv_same (r : nat) (n m : Z) (x : arr2) : arr2 := fun i j =>
  Rsum (2 * r + 1) (fun a => Rsum (2 * r + 1) (fun b =>
    kernel r a b * padded n m x (i + Z.of_nat r - Z.of_nat a)%Z (j + Z.of_nat r - Z.of_nat b)%Z)).
Definition project (beta eta x : R) : R :=
  (tanh (beta * eta) + tanh (beta * (x - eta))) / (tanh (beta * eta) + tanh (beta * (1 - eta))).
Definition smooth (beta eta : R) (r : nat) (n m : Z) (x : arr2) : arr2 := fun i j => project beta eta (conv_same r n m x i j).
(** grid.py:124-128 add on a 3-d grid: the z-slab written at a masked pixel, zidx = (int(zmin / spacing[0]), int((zmin + thickness) / spacing[1])). *)
Definition add_z (g : gridp) (zmin thickness eps : R) (e : Z -> R) (k : Z) : R :=
  if in_slice (g_shape g AZ) (trunc_z (zmin / g_spacing g AX)) (trunc_z ((zmin + thickness) / g_spacing g AY)) k then eps else e k.
