(** Model of the dense blocks of the couplings (src/models/couplings.cpp): the numpy arrays with the legs [p0, p1, ..., p1*, p0*] that are handed to Coupling::from_dense_block.

    Simplifications: floating point numbers are real/complex numbers; an n-dimensional array is a function of the list of its n indices (only indices below the dimensions
    matter); the conversion of the dense block into a symmetric tensor and its factorisation are not part of this file. *)
From Coq Require Import Reals ZArith List Arith Lia Bool.
From Verif Require Import Cplx SiteModel.
Import ListNotations.
Set Implicit Arguments. Unset Strict Implicit.
Open Scope nat_scope.

(** ** numpy arrays with any number of dimensions *)
Definition arr := list nat -> C.
Definition arr2 (A : mat) : arr := fun r => A (nth 0 r 0) (nth 1 r 0).
(** the array spin_vector[i, j, axis] *)
Definition arr3 (v : nat -> mat) : arr := fun r => v (nth 2 r 0) (nth 0 r 0) (nth 1 r 0).
Definition aadd (A B : arr) : arr := fun r => Cadd (A r) (B r).
Definition amul (A B : arr) : arr := fun r => Cmul (A r) (B r).
Definition ascale (a : C) (A : arr) : arr := fun r => Cmul a (A r).
Definition aconj (A : arr) : arr := fun r => Cconj (A r).
Definition azeros : arr := fun _ => C0.
Fixpoint pos (i : nat) (l : list nat) : nat := match l with [] => 0 | x :: l => if x =? i then 0 else S (pos i l) end.
(** np.transpose(A, axes) *)
Definition transpose (axes : list nat) (A : arr) : arr := fun r => A (map (fun i => nth (pos i axes) r 0) (seq 0 (length axes))).
(** A[:, None, None, :]: the positions of the original axes in the result; broadcasting ignores the index of a new axis *)
Definition newaxes (axes : list nat) (A : arr) : arr := fun r => A (map (fun a => nth a r 0) axes).
(** np.tensordot(A, B, (axA, axB)) for arrays with nA, nB dimensions; dims: the dimensions of the contracted axes *)
Definition free_axes (n : nat) (ax : list nat) : list nat := filter (fun i => negb (existsb (Nat.eqb i) ax)) (seq 0 n).
Definition assemble (n : nat) (ax : list nat) (k r : list nat) : list nat :=
  map (fun i => let p := pos i ax in if p <? length ax then nth p k 0 else nth (pos i (free_axes n ax)) r 0) (seq 0 n).
Definition tensordot (dims : list nat) (nA nB : nat) (axA axB : list nat) (A B : arr) : arr := fun r =>
  let m := length (free_axes nA axA) in
  csums (map (fun k => Cmul (A (assemble nA axA k (firstn m r))) (B (assemble nB axB k (skipn m r)))) (product (map (seq 0) dims))).
(** np.cross along the last (fifth) axis *)
Definition cross (A B : arr) : arr := fun r =>
  let at_ X a := X (firstn 4 r ++ [a]) in
  match nth 4 r 0 with
  | 0 => Csub (Cmul (at_ A 1) (at_ B 2)) (Cmul (at_ A 2) (at_ B 1))
  | 1 => Csub (Cmul (at_ A 2) (at_ B 0)) (Cmul (at_ A 0) (at_ B 2))
  | _ => Csub (Cmul (at_ A 0) (at_ B 1)) (Cmul (at_ A 1) (at_ B 0))
  end.
(** if (pref != 0.) h = h + pref * term *)
Definition add_if (pref : R) (term h : arr) : arr := if Req_EM_T pref 0 then h else aadd h (ascale (RtoC pref) term).

(** ** spins; v0, v1, v2 are the spin vectors of the sites *)
(** couplings.cpp:860-891 spin_spin_coupling *)
Definition spin_spin (v0 v1 : nat -> mat) (Jx Jy Jz : R) : arr :=
  let h := fold_left (fun h axis =>
             let pref := match axis with 0 => Jx | 1 => Jy | _ => Jz end in
             let s1 := arr2 (v0 axis) in
             let s2 := arr2 (v1 axis) in
             add_if pref (tensordot [] 2 2 [] [] s1 s2) h) [0; 1; 2] azeros in
  transpose [0; 2; 3; 1] h.
(** couplings.cpp:893-928 spin_field_coupling *)
Definition spin_field (v : nat -> mat) (hx hy hz : R) : arr :=
  let h := azeros in
  let h := add_if hx (arr2 (v 0)) h in
  let h := add_if hy (arr2 (v 1)) h in
  add_if hz (arr2 (v 2)) h.
(** couplings.cpp:930-954 aklt_coupling *)
Definition aklt (d0 d1 : nat) (v0 v1 : nat -> mat) (J : R) : arr :=
  let S_dot_S := tensordot [3] 3 3 [2] [2] (arr3 v0) (arr3 v1) in
  let S_dot_S := transpose [0; 2; 3; 1] S_dot_S in
  let S_dot_S_square := tensordot [d0; d1] 4 4 [3; 2] [0; 1] S_dot_S S_dot_S in
  aadd (ascale (RtoC J) S_dot_S) (ascale (RtoC (J / 3)) S_dot_S_square).
(** couplings.cpp:956-965 heisenberg_coupling *)
Definition heisenberg (v0 v1 : nat -> mat) (J : R) : arr := spin_spin v0 v1 J J J.
(** couplings.cpp:967-992 chiral_3spin_coupling *)
Definition chiral_3spin (v0 v1 v2 : nat -> mat) (chi : R) : arr :=
  let SxS := cross (newaxes [0; 3; 4] (arr3 v1)) (newaxes [1; 2; 4] (arr3 v2)) in
  let h := ascale (RtoC chi) (tensordot [3] 3 5 [2] [4] (arr3 v0) SxS) in
  transpose [0; 2; 3; 4; 5; 1] h.

(** ** densities *)
(** couplings.cpp:994-1010 chemical_potential; species already resolved *)
Definition chemical_potential (s : occ_site) (mu : R) (species : option (list nat)) : arr := ascale (RtoC (- mu)) (arr2 (get_occupation s species)).
(** couplings.cpp:1012-1030 onsite_interaction *)
Definition onsite_interaction (s : occ_site) (U : R) (species : option (list nat)) : arr :=
  let n_i := get_occupation s species in
  ascale (RtoC (1/2 * U)) (arr2 (mmul (os_dim s) n_i n_i)).
(** couplings.cpp:1032-1065 density_density_interaction, for two bosonic or two fermionic sites *)
Definition density_density (s0 s1 : occ_site) (V : R) (species_i species_j : option (list nat)) : arr :=
  let n_i := arr2 (get_occupation s0 species_i) in
  let n_j := arr2 (get_occupation s1 species_j) in
  ascale (RtoC V) (amul (newaxes [0; 3] n_i) (newaxes [1; 2] n_j)).

(** ** clocks *)
(** couplings.cpp:1145-1192 clock_clock_coupling; X_i, Z_i, X_j, Z_j from the sites *)
Definition clock_clock (X_i Z_i X_j Z_j : mat) (Jx Jz : R) : arr :=
  let h := azeros in
  let h := add_if Jx (amul (newaxes [0; 3] (arr2 X_i)) (newaxes [1; 2] (arr2 (mconjT X_j)))) h in
  let h := add_if Jz (amul (newaxes [0; 3] (arr2 Z_i)) (newaxes [1; 2] (arr2 (mconjT Z_j)))) h in
  aadd h (transpose [3; 2; 1; 0] (aconj h)).
(** couplings.cpp:1194-1218 clock_field_coupling *)
Definition clock_field (X Z : mat) (hx hz : option R) : arr :=
  let hx_val := match hx with Some x => x | None => 0%R end in
  let hz_val := match hz with Some x => x | None => 0%R end in
  aadd (ascale (RtoC hx_val) (arr2 (madd X (mconjT X)))) (ascale (RtoC hz_val) (arr2 (madd Z (mconjT Z)))).

(** ** hopping and pairing *)
(** couplings.cpp:159-167 occupation_jw *)
Definition occupation_jw (fermionic : bool) (s : occ_site) : mat := if fermionic then JW s else mdiag (fun _ => C1).
(** degrees_of_freedom.cpp:876-892, 1143-1167 get_creator_numpy / get_annihilator_numpy with include_JW = true: the species is resolved by the site *)
Definition creator_numpy (fermionic : bool) (s : occ_site) (k : Z) : option mat :=
  match get_species_idx s (Some k) with None => None | Some i => Some (if fermionic then get_creator s i true else os_creators s i) end.
Definition annihilator_numpy (fermionic : bool) (s : occ_site) (k : Z) : option mat :=
  match get_species_idx s (Some k) with None => None | Some i => Some (if fermionic then get_annihilator s i true else os_annihilators s i) end.
Definition species_list (s : occ_site) (species : option (list Z)) : list Z :=
  match species with None => map Z.of_nat (seq 0 (os_species s)) | Some l => l end.
(** numpy broadcasting of a (d,) index to an array axis of length d or 1 *)
Definition bidx (d i : nat) : nat := if d =? 1 then 0 else i.
(** couplings.cpp:194-254 quadratic_coupling_numpy, after the checks of the number and the kind of the sites; species: the pair of lists, None = all species of the site.
    None: an exception (a species that does not exist, list index out of range, arrays that cannot be broadcast to the shape of h). *)
Fixpoint quadratic_loop (fermionic is_pairing : bool) (occ_i occ_j : occ_site) (species_i species_j : list Z) (h : arr) : option arr :=
  match species_i with
  | [] => Some h
  | k_i :: species_i =>
      match species_j with
      | [] => None
      | k_j :: species_j =>
          match creator_numpy fermionic occ_i k_i, (if is_pairing then creator_numpy fermionic occ_i k_j else annihilator_numpy fermionic occ_i k_j) with
          | Some op_i, Some op_j =>
              let d := os_dim occ_i in
              if negb ((d =? os_dim occ_j) || (d =? 1)) then None
              else quadratic_loop fermionic is_pairing occ_i occ_j species_i species_j
                     (aadd h (amul (newaxes [0; 3] (arr2 (mmul d op_i (occupation_jw fermionic occ_i))))
                                   (newaxes [1; 2] (fun r => op_j (bidx d (nth 0 r 0)) (bidx d (nth 1 r 0))))))
          | _, _ => None
          end
      end
  end.
Definition quadratic (fermionic is_pairing : bool) (occ_i occ_j : occ_site) (species : option (list Z) * option (list Z)) : option arr :=
  let species_i := species_list occ_i (fst species) in
  let species_j := species_list occ_j (snd species) in
  match species_i, species_j with
  | [], _ => Some azeros
  | _, [] => Some azeros
  | _, _ =>
      match quadratic_loop fermionic is_pairing occ_i occ_j species_i species_j azeros with
      | None => None
      | Some h => Some (aadd h (transpose [3; 2; 1; 0] (aconj h)))
      end
  end.
(** couplings.cpp:1067-1081 hopping, 1083-1097 pairing *)
Definition hopping (fermionic : bool) (occ_i occ_j : occ_site) (t : R) (species : option (list Z) * option (list Z)) : option arr :=
  option_map (ascale (RtoC (- t))) (quadratic fermionic false occ_i occ_j species).
Definition pairing (fermionic : bool) (occ_i occ_j : occ_site) (Delta : R) (species : option (list Z) * option (list Z)) : option arr :=
  option_map (ascale (RtoC Delta)) (quadratic fermionic true occ_i occ_j species).
(** couplings.cpp:1099-1143 onsite_pairing *)
Fixpoint onsite_pairing_loop (fermionic : bool) (occ : occ_site) (Delta : R) (species_1 species_2 : list Z) (h : mat) : option mat :=
  match species_1 with
  | [] => Some h
  | k1 :: species_1 =>
      match species_2 with
      | [] => None
      | k2 :: species_2 =>
          match creator_numpy fermionic occ k1, creator_numpy fermionic occ k2 with
          | Some a_i_hc, Some a_j_hc => onsite_pairing_loop fermionic occ Delta species_1 species_2 (madd h (mscale (RtoC Delta) (mmul (os_dim occ) a_i_hc a_j_hc)))
          | _, _ => None
          end
      end
  end.
Definition onsite_pairing (fermionic : bool) (occ : occ_site) (Delta : R) (species : option (list Z) * option (list Z)) : option arr :=
  match onsite_pairing_loop fermionic occ Delta (species_list occ (fst species)) (species_list occ (snd species)) mzero with
  | None => None
  | Some h => Some (arr2 (madd h (mconjT h)))
  end.
