(** Model of the numpy part of the site library (src/models/degrees_of_freedom.cpp, src/models/sites.cpp): the operators, state labels and basis sectors that the sites
    with spin, bosonic, fermionic and clock degrees of freedom are built from.

    Simplifications: floating point numbers are real/complex numbers, so `np.allclose` conditions are exact; a d x d array is a function of two indices (only the indices
    below d matter); a 3-dimensional array [d, d, K] is a function of the last index; string labels are represented by the numbers they print. *)
From Coq Require Import Reals ZArith List Arith Lia Bool.
From Verif Require Import Cplx.
Import ListNotations.
Set Implicit Arguments. Unset Strict Implicit.
Open Scope nat_scope.

(** numpy arrays of two dimensions *)
Definition mat := nat -> nat -> C.
Definition Ci : C := (0%R, 1%R).
Definition csums (l : list C) : C := fold_right Cadd C0 l.
Definition msum (n : nat) (f : nat -> C) : C := csums (map f (seq 0 n)).
(** np.matmul *)
Definition mmul (d : nat) (A B : mat) : mat := fun i j => msum d (fun k => Cmul (A i k) (B k j)).
Definition madd (A B : mat) : mat := fun i j => Cadd (A i j) (B i j).
Definition msub (A B : mat) : mat := fun i j => Csub (A i j) (B i j).
Definition mscale (a : C) (A : mat) : mat := fun i j => Cmul a (A i j).
(** np.zeros, np.eye, np.diag, conj(.T) *)
Definition mzero : mat := fun _ _ => C0.
Definition meye : mat := fun i j => if i =? j then C1 else C0.
Definition mdiag (f : nat -> C) : mat := fun i j => if i =? j then f i else C0.
Definition mconjT (A : mat) : mat := fun i j => Cconj (A j i).
Definition mtrans (A : mat) : mat := fun i j => A j i.
(** A[i, j] = v *)
Definition mset (A : mat) (i j : nat) (v : C) : mat := fun a b => if (a =? i) && (b =? j) then v else A a b.
(** np.eye(d, k = k) *)
Definition meye_k (k : Z) : mat := fun i j => if (Z.of_nat j =? Z.of_nat i + k)%Z then C1 else C0.
(** np.linalg.matrix_power *)
Fixpoint mpow (d : nat) (A : mat) (n : nat) : mat := match n with O => meye | S n => mmul d A (mpow d A n) end.
(** np.kron of square arrays with their sizes *)
Definition kron (a b : nat * mat) : nat * mat :=
  (fst a * fst b, fun i j => Cmul (snd a (i / fst b) (j / fst b)) (snd b (i mod fst b) (j mod fst b))).
(** functools.reduce(np.kron, l), degrees_of_freedom.cpp:187-191; an empty list raises in python and does not occur here *)
Definition reduce_kron (l : list (nat * mat)) : nat * mat := match l with [] => (1, meye) | x :: l => fold_left kron l x end.
(** itertools.product *)
Definition product A (pools : list (list A)) : list (list A) :=
  fold_left (fun res pool => flat_map (fun x => map (fun y => x ++ [y]) pool) res) pools [[]].
(** np.mod(x, 2) of a real array; np.power(-1, x) for an array x with integer entries *)
Definition np_mod2 (z : C) : C := RtoC (fst z - 2 * IZR (Int_part (fst z / 2)))%R.
Definition np_power_m1 (z : C) : C := if Z.even (Int_part (fst z)) then C1 else Copp C1.
(** np.cumsum along the axis *)
Definition cumsum (l : list C) : list C := map (fun k => csums (firstn (S k) l)) (seq 0 (length l)).

(** ** spins *)
(** degrees_of_freedom.cpp:571-586 SpinDOF::spin_vector_from_Sp; component 0, 1, 2 of the last axis *)
Definition spin_vector_from_Sp (Sz Sp : mat) : nat -> mat :=
  let Sm := mconjT Sp in
  let Sx := mscale (RtoC (1/2)) (madd Sp Sm) in
  let Sy := mscale (0%R, (1/2)%R) (msub Sm Sp) in
  fun axis => match axis with 0 => Sx | 1 => Sy | _ => Sz end.
(** sites.cpp:273-295: the operators of SpinSite.prepare for total spin two_S / 2 *)
Definition spin_Sz (two_S : nat) : mat := mdiag (fun n => RtoC (- (INR two_S / 2) + INR n)).
Definition spin_Sp (two_S : nat) : mat :=
  let s := (INR two_S / 2)%R in
  let dim := two_S + 1 in
  fold_left (fun M n => let m := (INR n - s)%R in mset M (n + 1) n (RtoC (sqrt (s * (s + 1) - m * (m + 1))))) (seq 0 (dim - 1)) mzero.
Definition spin_vector (two_S : nat) : nat -> mat := spin_vector_from_Sp (spin_Sz two_S) (spin_Sp two_S).
(** np.arange(a, b, step) *)
Definition arange (a b step : Z) : list Z := map (fun k => (a + step * Z.of_nat k)%Z) (seq 0 (Z.to_nat ((b - a + step - 1) / step))).
(** sites.cpp:163-190 leg_from_spin_symmetry: the sectors of the basis states passed to from_basis, for the U(1), Z_2 and trivial symmetry *)
Inductive spin_conserve := SpinU1 | SpinParity | SpinNone.
Definition spin_leg_basis (c : spin_conserve) (two_S : nat) : list Z :=
  let two := Z.of_nat two_S in
  match c with
  | SpinU1 => arange (- two) (two + 2) 2
  | SpinParity => map (fun n => (n mod 2)%Z) (arange 0 (two + 1) 1)
  | SpinNone => repeat 0%Z (two_S + 1)
  end.
(** sites.cpp:268-294: the labels (twice the number printed) with the index of the state, after the two aliases down, up *)
Definition spin_labels (two_S : nat) : list (Z * nat) := map (fun n => ((2 * Z.of_nat n - Z.of_nat two_S)%Z, n)) (seq 0 (two_S + 1)).
Definition spin_down : nat := 0.
Definition spin_up (two_S : nat) : nat := (two_S + 1) - 1.
Record spin_site := SpinSite { ss_dim : nat; ss_vector : nat -> mat; ss_basis : list Z; ss_labels : list (Z * nat) }.
(** sites.cpp:260-295 SpinSite::prepare, for 2 S given as an integer *)
Definition spin_prepare (two_S : Z) (c : spin_conserve) : option spin_site :=
  if (two_S <? 0)%Z then None
  else let n := Z.to_nat two_S in Some (SpinSite (n + 1) (spin_vector n) (spin_leg_basis c n) (spin_labels n)).
(** sites.cpp:735-748: the operators "Sp", "Sm" of the site *)
Definition spin_op_Sp (v : nat -> mat) : mat := madd (v 0) (mscale Ci (v 1)).
Definition spin_op_Sm (v : nat -> mat) : mat := msub (v 0) (mscale Ci (v 1)).
Definition spin_op_sigma (v : nat -> mat) (axis : nat) : mat := mscale (RtoC 2) (v axis).

(** ** occupation numbers *)
(** degrees_of_freedom.cpp:998-1009 creation_annihilation_op_from_single_Nmax: (creator, annihilator) *)
Definition single_ops (Nmax : nat) : mat * mat :=
  let dim := Nmax + 1 in
  let B := fold_left (fun M n => mset M (n - 1) n (RtoC (sqrt (INR n)))) (seq 1 (dim - 1)) mzero in
  (mtrans B, B).
(** degrees_of_freedom.cpp:1011-1053 creation_annihilation_ops_from_Nmax: the operators of species i *)
Definition species_factors (op : nat -> mat) (Nmax : list nat) (i : nat) : list (nat * mat) :=
  map (fun j => let N := nth j Nmax 0 in
         if j <? i then (N + 1, meye) else if j =? i then (N + 1, op N) else (N + 1, meye)) (seq 0 (length Nmax)).
Definition creator (Nmax : list nat) (i : nat) : mat := snd (reduce_kron (species_factors (fun N => fst (single_ops N)) Nmax i)).
Definition annihilator (Nmax : list nat) (i : nat) : mat := snd (reduce_kron (species_factors (fun N => snd (single_ops N)) Nmax i)).
(** sites.cpp:317-318: total_dim *)
Definition occ_dim (Nmax : list nat) : nat := fold_left Nat.mul (map (fun N => 1 + N) Nmax) 1.

(** degrees_of_freedom.cpp:690-740 OccupationDOF: creators and annihilators per species *)
Record occ_site := OccSite { os_dim : nat; os_species : nat; os_creators : nat -> mat; os_annihilators : nat -> mat }.
(** degrees_of_freedom.cpp:733-739: tensordot over the inner axes and the diagonal over the species *)
Definition number_operator (s : occ_site) (k : nat) : mat := mmul (os_dim s) (os_creators s k) (os_annihilators s k).
Definition n_tot (s : occ_site) : mat := fun i j => csums (map (fun k => number_operator s k i j) (seq 0 (os_species s))).
(** degrees_of_freedom.cpp:843-859 get_occupation_numpy; species None: all of them; indices already resolved *)
Definition get_occupation (s : occ_site) (species : option (list nat)) : mat :=
  let idx := match species with None => seq 0 (os_species s) | Some l => l end in
  fun i j => csums (map (fun k => number_operator s k i j) idx).
(** degrees_of_freedom.cpp:862-873 get_species_idx with to_valid_idx *)
Definition get_species_idx (s : occ_site) (species : option Z) : option nat :=
  match species with
  | None => if 1 <? os_species s then None else Some 0
  | Some k => let n := Z.of_nat (os_species s) in
              if ((- n <=? k) && (k <? n))%Z then Some (Z.to_nat (if (k <? 0)%Z then k + n else k)) else None
  end.
(** degrees_of_freedom.cpp:801-815, 820-828: the operators Nk Nk, P_k, NtotNtot, Ptot; sites.cpp:217-229: dN, dNdN *)
Definition op_square (s : occ_site) (n : mat) : mat := mmul (os_dim s) n n.
Definition op_parity (n : mat) : mat := mdiag (fun i => Csub C1 (Cmul (RtoC 2) (np_mod2 (n i i)))).
Definition op_dN (s : occ_site) (filling : R) : mat := mdiag (fun i => Csub (n_tot s i i) (RtoC filling)).
Definition op_dNdN (s : occ_site) (filling : R) : mat := mdiag (fun i => let x := Csub (n_tot s i i) (RtoC filling) in Cmul x x).

(** sites.cpp:297-431 SpinlessBosonSite::prepare *)
Definition boson_site (Nmax : list nat) : occ_site := OccSite (occ_dim Nmax) (length Nmax) (creator Nmax) (annihilator Nmax).
Definition state_ranges (Nmax : list nat) : list (list nat) := map (fun N => seq 0 (N + 1)) Nmax.
Inductive boson_conserve := BosonN | BosonParity | BosonNone | BosonEach (l : list boson_conserve).
Definition natsum (l : list nat) : nat := fold_right Nat.add 0 l.
(** the sectors of the basis states, in the order passed to from_basis; None: invalid `conserve` *)
Definition boson_leg_basis (c : boson_conserve) (Nmax : list nat) : option (list (list Z)) :=
  let occs := product (state_ranges Nmax) in
  match c with
  | BosonN => Some (map (fun occ => [Z.of_nat (natsum occ)]) occs)
  | BosonParity => Some (map (fun occ => [(Z.of_nat (natsum occ) mod 2)%Z]) occs)
  | BosonNone => Some (repeat [0%Z] (occ_dim Nmax))
  | BosonEach l =>
      if negb (length l =? length Nmax) then None
      else if forallb (fun c => match c with BosonNone => true | _ => false end) l then Some (repeat [0%Z] (occ_dim Nmax))
      else Some (map (fun occ => map (fun p => match fst p with BosonNone => 0%Z | BosonParity => (Z.of_nat (snd p) mod 2)%Z | _ => Z.of_nat (snd p) end)
                                     (combine l occ)) occs)
  end.
(** sites.cpp:397-427: (occupations, index) *)
Definition boson_labels (Nmax : list nat) : list (list nat * nat) :=
  let dim_prod := map (fun i => fold_left Nat.mul (map (fun j => nth j Nmax 0 + 1) (seq (i + 1) (length Nmax - (i + 1)))) 1) (seq 0 (length Nmax)) in
  map (fun occ => (occ, natsum (map (fun p => fst p * snd p) (combine occ dim_prod)))) (product (state_ranges Nmax)).

(** ** fermions *)
(** degrees_of_freedom.cpp:1186-1192 FermionicDOF::creation_annihilation_ops; sites.cpp:433-535 *)
Definition fermion_site (n : nat) : occ_site := OccSite (2 ^ n) n (creator (repeat 1 n)) (annihilator (repeat 1 n)).
(** degrees_of_freedom.cpp:1094-1110: n_before, partial_JWs, JW *)
Definition n_before (s : occ_site) (i : nat) : list C :=
  let n_diag := map (fun k => number_operator s k i i) (seq 0 (os_species s)) in
  cumsum (C0 :: removelast n_diag).
Definition partial_JW (s : occ_site) (k : nat) : mat := mdiag (fun i => np_power_m1 (nth k (n_before s i) C0)).
Definition JW (s : occ_site) : mat := mdiag (fun i => np_power_m1 (n_tot s i i)).
(** degrees_of_freedom.cpp:1143-1167 *)
Definition get_annihilator (s : occ_site) (k : nat) (include_JW : bool) : mat :=
  let res := os_annihilators s k in if include_JW then mmul (os_dim s) res (partial_JW s k) else res.
Definition get_creator (s : occ_site) (k : nat) (include_JW : bool) : mat :=
  let res := os_creators s k in if include_JW then mmul (os_dim s) res (partial_JW s k) else res.
Inductive fermion_conserve := FermionN | FermionParity | FermionEach (l : list boson_conserve).
(** sites.cpp:433-503 the sectors of the basis states of SpinlessFermionSite *)
Definition fermion_leg_basis (c : fermion_conserve) (n : nat) : list (list Z) :=
  let occs := product (repeat [0; 1] n) in
  let par occ := (Z.of_nat (natsum occ) mod 2)%Z in
  match c with
  | FermionParity => map (fun occ => [par occ]) occs
  | FermionN => map (fun occ => [Z.of_nat (natsum occ); par occ]) occs
  | FermionEach l =>
      if forallb (fun c => match c with BosonNone => true | _ => false end) l then map (fun occ => [par occ]) occs
      else map (fun occ => map (fun p => match fst p with BosonNone => 0%Z | _ => Z.of_nat (snd p) end) (combine l occ) ++ [par occ]) occs
  end.
(** sites.cpp:505-530 *)
Definition fermion_labels (n : nat) : list (list nat * nat) :=
  map (fun occ => (occ, fold_left (fun idx x => Nat.lor (Nat.shiftl idx 1) x) occ 0)) (product (repeat [0; 1] n)).

(** sites.cpp:537-625 SpinHalfFermionSite::prepare: species 0 is up, species 1 is down *)
Definition shf_Sz : mat := mdiag (fun n => RtoC (nth n [0; - (1/2); 1/2; 0] 0)%R).
Definition shf_Sp : mat := mset mzero 2 1 C1.
Definition shf_vector : nat -> mat := spin_vector_from_Sp shf_Sz shf_Sp.
(** the columns (2 S_z, N, parity); with the U(1) x U(1) x parity symmetry *)
Definition shf_leg_basis : list (list Z) := [[0; 0; 0]; [-1; 1; 1]; [1; 1; 1]; [0; 2; 0]]%Z.

(** ** clock *)
(** sites.cpp:627-664 ClockSite::prepare *)
Definition clock_X (q : nat) : mat := madd (meye_k 1) (meye_k (1 - Z.of_nat q)).
Definition clock_Z (q : nat) : mat := mdiag (fun n => cis (2 * PI / INR q * INR n)).
Definition clock_leg_basis (q : nat) : list Z := arange 0 (Z.of_nat q) 1.

(** ** operators by name: degrees_of_freedom.cpp:458-478 Site::state_index for an integer *)
Definition state_index (dim : nat) (label : Z) : option nat :=
  let d := Z.of_nat dim in
  if negb ((- d <=? label) && (label <? d))%Z then None else Some (Z.to_nat (if (label <? 0)%Z then label + d else label)).
