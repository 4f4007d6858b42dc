(** Anyon categories: fusion rules and F, R, C symbols (src/symmetries/factors/*anyon*.cpp).
    The float64 / complex128 numbers of the code are modelled by exact numbers: the symbol
    tables are written over an arbitrary scalar type and instantiated with complex numbers
    (pairs of reals).  Every symbol value is [Fsym K] / [Rsym K]: sectors, then multiplicity
    indices, with the shapes checked by the n-symbols. *)
From Coq Require Import Reals.
From Verif Require Import Util RowModel SymModel AbelianModel CatSpec Cplx Tower.
Set Implicit Arguments.
Unset Strict Implicit.
Open Scope Z_scope.

(** base_symmetry.cpp:159-184 / fibonacci 24-40 / ising 25-41 / su3_3 28-45: R1 F conj(R2) *)
Definition default_c_symbol K (o : ops K) (F : Fsym K) (R : Rsym K) : Fsym K :=
  fun a b c d e f mu nu kap lam =>
    omul o (omul o (R e c d nu) (F c a b d e f mu nu kap lam)) (oconj o (R a c f kap)).

(** * Fibonacci *)
(** fibonacci_anyon_category.cpp:70-95, 175-178; the default case throws: modelled by [] *)
Definition fib_outcomes (a b : sector) : list sector :=
  match q0 a + q0 b with
  | 0 => [[0]]
  | 1 => [[1]]
  | 2 => [[0]; [1]]
  | _ => []
  end.
(** fibonacci_anyon_category.cpp:112-130, 153-157, 201-205, 213-217 *)
Definition Fibonacci : symmetry := {|
  sym_len := 1;
  sym_valid := fun a => len1 a && ((0 <=? q0 a) && (q0 a <? 2));
  sym_trivial := [0];
  sym_outcomes := fib_outcomes;
  sym_n := fun _ _ _ => 1%nat;
  sym_dual := fun a => a;
  sym_dim := fun _ => 0%nat;
|}.
Definition all_tau (a b : sector) : bool := (q0 a =? 1) && (q0 b =? 1).
Section Fib.
  Variable K : Type.
  Variable o : ops K.
  Variable ftab rtab : list K.
  (** fibonacci_anyon_category.cpp:219-228 *)
  Definition fib_F : Fsym K := fun a b c d e f _ _ _ _ =>
    if all_tau a b && all_tau c d then nth (Z.to_nat (q0 e + q0 f)) ftab (o0 o) else o1 o.
  (** fibonacci_anyon_category.cpp:252-260 *)
  Definition fib_R : Rsym K := fun a b c _ =>
    if all_tau a b then nth (Z.to_nat (q0 c)) rtab (o0 o) else o1 o.
  (** fibonacci_anyon_category.cpp:133-150: the table built by the constructor *)
  Definition fib_ctab : list K :=
    let d := fun a b c d e f : Z => default_c_symbol o fib_F fib_R [a] [b] [c] [d] [e] [f] 0%nat 0%nat 0%nat 0%nat in
    [ d 0 1 1 0 1 1; o0 o; o0 o; d 0 1 1 1 1 1; o0 o; o0 o; d 1 1 1 0 1 1;
      d 1 1 1 1 0 0; d 1 1 1 1 1 0; d 1 1 1 1 1 1 ].
  (** fibonacci_anyon_category.cpp:262-270 *)
  Definition fib_C : Fsym K := fun a b c d e f _ _ _ _ =>
    if all_tau b c then nth (Z.to_nat (6 * q0 a + 3 * q0 d + q0 e + q0 f - 2)) fib_ctab (o0 o) else o1 o.
End Fib.
(** fibonacci_anyon_category.cpp:42-67, 230-241 with exact numbers *)
Definition phi : R := ((1 + sqrt 5) / 2)%R.
Definition fib_ftab : list C := [RtoC (/ phi)%R; RtoC (/ sqrt phi)%R; RtoC (- / phi)%R].
Definition fib_rtab (right_handed : bool) : list C :=
  let arr := [cis (-4 * PI / 5)%R; cis (3 * PI / 5)%R] in
  if right_handed then map Cconj arr else arr.
Definition fib_qdim (a : sector) : R := if q0 a =? 0 then 1%R else phi.
Definition fib_fs (a : sector) : Z := 1.

(** * Ising *)
(** ising_anyon_category.cpp:83-122, 214-218 *)
Definition ising_outcomes (a b : sector) : list sector :=
  match q0 a * q0 a + q0 b * q0 b with
  | 0 => [[0]]
  | 1 => [[1]]
  | 2 => [[0]; [2]]
  | 4 => [[2]]
  | 5 => [[1]]
  | 8 => [[0]]
  | _ => []
  end.
(** ising_anyon_category.cpp:150-165, 193-197, 244-248, 256-260 *)
Definition Ising : symmetry := {|
  sym_len := 1;
  sym_valid := fun a => len1 a && ((0 <=? q0 a) && (q0 a <? 3));
  sym_trivial := [0];
  sym_outcomes := ising_outcomes;
  sym_n := fun _ _ _ => 1%nat;
  sym_dual := fun a => a;
  sym_dim := fun _ => 0%nat;
|}.
(** ising_anyon_category.cpp:161: nu(((nu_ % 16) + 16) % 16) with C's truncated remainder *)
Definition ising_nu (nu : Z) : Z := Z.rem (Z.rem nu 16 + 16) 16.
(** ising_anyon_category.cpp:49-55, 279-283 *)
Definition ising_fs1 (nu : Z) : Z := if Z.rem (Z.quot (nu * nu - 1) 8) 2 =? 0 then 1 else -1.
Definition ising_fs (nu : Z) (a : sector) : Z := nth (Z.to_nat (q0 a)) [1; ising_fs1 nu; 1] 0.
Definition sectors_are (a b c d : sector) (x y z w : Z) : bool :=
  (q0 a =? x) && (q0 b =? y) && (q0 c =? z) && (q0 d =? w).
Section IsingSec.
  Variable K : Type.
  Variable o : ops K.
  Variable ftab rtab : list K.
  (** [phase] is (-i)^nu of ising_anyon_category.cpp:169 *)
  Variable phase : K.
  (** ising_anyon_category.cpp:262-277 *)
  Definition ising_F : Fsym K := fun a b c d e f _ _ _ _ =>
    if sectors_are a b c d 1 1 1 1 then nth (Z.to_nat (q0 e + q0 f)) ftab (o0 o)
    else if sectors_are a b c d 2 1 2 1 then oopp o (o1 o)
    else if sectors_are a b c d 1 2 1 2 then oopp o (o1 o)
    else o1 o.
  (** ising_anyon_category.cpp:302-316 *)
  Definition ising_R : Rsym K := fun a b c _ =>
    if negb (q0 a =? 0) && negb (q0 b =? 0) then
      let row := (q0 a + q0 b) * (q0 c - 1) in
      let row := if row <? 0 then row + 5 else row in
      nth (Z.to_nat row) rtab (o0 o)
    else o1 o.
  (** ising_anyon_category.cpp:169-190 *)
  Definition ising_ctab : list K :=
    let d := fun a b c d e f : Z => default_c_symbol o ising_F ising_R [a] [b] [c] [d] [e] [f] 0%nat 0%nat 0%nat 0%nat in
    [ phase; oopp o phase; d 0 1 1 0 1 1; d 0 1 1 2 1 1; d 1 1 1 1 0 0; d 1 1 1 1 0 2;
      d 1 1 1 1 2 2; o0 o; d 2 1 1 0 1 1; d 2 1 1 2 1 1; oopp o (o1 o) ].
  (** ising_anyon_category.cpp:318-332 *)
  Definition ising_C : Fsym K := fun a b c d e f _ _ _ _ =>
    if (q0 b =? 1) && (q0 c =? 1) then
      let factor := -1 * (q0 b - q0 c - 1) * (q0 b - q0 c + 1) in
      let factor := factor * (1 - Z.quot (q0 a) 2 - Z.quot (q0 d) 2 + 9 * (q0 b - 1) +
         (2 - q0 b) * (Z.quot (q0 e + q0 f) 2 + Z.quot (q0 d) 2 + 3 * q0 a)) in
      nth (Z.to_nat (factor + Z.quot (q0 a) 2 + Z.quot (q0 d) 2)) ising_ctab (o0 o)
    else o1 o.
End IsingSec.
(** ising_anyon_category.cpp:56-81, 285-289 with exact numbers; nu is already in [0, 16) *)
Definition ising_ftab (nu : Z) : list C :=
  let fs1 := IZR (ising_fs1 nu) in
  [RtoC (1 * fs1 * (1 / sqrt 2))%R; C0; RtoC (1 * fs1 * (1 / sqrt 2))%R; C0; RtoC (-1 * fs1 * (1 / sqrt 2))%R].
Definition ising_phase (nu : Z) : C := opow Cops (0%R, (-1)%R) (Z.to_nat nu).
Definition ising_rtab (nu : Z) : list C :=
  let fs1 := RtoC (IZR (ising_fs1 nu)) in
  [ising_phase nu; RtoC (-1)%R; Cmul (cis (3 * IZR nu * PI / 8)%R) fs1;
   Cmul (cis (- IZR nu * PI / 8)%R) fs1; C0].
Definition ising_qdim (a : sector) : R := if q0 a =? 1 then sqrt 2 else 1%R.

(** * SU(3)_3 *)
(** su3_3_anyon_category.cpp:98-128, 387-393; unknown keys give an empty SectorArray *)
Definition su33_fusion_map (key : Z) : list sector :=
  match key with
  | 0 => [[0]]
  | 1 => [[1]]
  | 2 => [[0]; [1]; [2]; [3]]
  | 4 => [[2]]
  | 5 => [[1]]
  | 10 => [[1]]
  | 8 => [[3]]
  | 9 => [[3]]
  | 13 => [[0]]
  | 18 => [[2]]
  | _ => []
  end.
Definition su33_outcomes (a b : sector) : list sector :=
  su33_fusion_map (q0 a * q0 a + q0 b * q0 b).
(** su3_3_anyon_category.cpp:130-141 *)
Definition su33_dual (a : sector) : sector :=
  match q0 a with 2 => [3] | 3 => [2] | j => [to_i16 j] end.
(** su3_3_anyon_category.cpp:440-453 *)
Definition su33_dual_sectors (l : list sector) : list sector :=
  map (fun a => if 2 <=? q0 a then [mod_n (- q0 a) 5] else [q0 a]) l.
(** su3_3_anyon_category.cpp:203-212, 366-370, 434-438, 395-399, 455-459 *)
Definition SU3_3 : symmetry := {|
  sym_len := 1;
  sym_valid := fun a => len1 a && ((0 <=? q0 a) && (q0 a <? 4));
  sym_trivial := [0];
  sym_outcomes := su33_outcomes;
  sym_n := fun a b c => if (q0 a =? 1) && (q0 b =? 1) && (q0 c =? 1) then 2%nat else 1%nat;
  sym_dual := su33_dual;
  sym_dim := fun _ => 1%nat;
|}.
Section SU33.
  Variable K : Type.
  Variable o : ops K.
  (** exact values of 1/3, 1/2, sqrt(3)/2, 1/sqrt(3), 1/sqrt(12) and the imaginary unit *)
  Variables third half s3h is3 is12 ii : K.
  Notation z := (o0 o).
  Notation e := (o1 o).
  Notation "- x" := (oopp o x).
  (** su3_3_anyon_category.cpp:143-162; _f3 is the transpose *)
  Definition su33_f1 : list (list K) := [[e; z]; [z; e]].
  Definition su33_f2 : list (list K) := [[- half; - s3h]; [s3h; - half]].
  Definition su33_f3 : list (list K) := [[- half; s3h]; [- s3h; - half]].
  (** su3_3_anyon_category.cpp:164-201 *)
  Definition su33_f4 : list (list K) :=
    [ [third;   is3;     z;       z;       is3;     - third; - third];
      [is3;     - half;  z;       z;       half;    is12;    is12];
      [z;       z;       half;    half;    z;       - half;  half];
      [z;       z;       half;    half;    z;       half;    - half];
      [is3;     half;    z;       z;       - half;  is12;    is12];
      [- third; is12;    half;    - half;  is12;    third;   third];
      [- third; is12;    - half;  half;    is12;    third;   third] ].
  (** su3_3_anyon_category.cpp:53-66 *)
  Definition f4_slices (charge : Z) : nat * nat :=
    match charge with 0 => (0%nat, 1%nat) | 1 => (1%nat, 5%nat) | 2 => (5%nat, 6%nat) | _ => (6%nat, 7%nat) end.
  Definition mat_get (m : list (list K)) (i j : nat) : K := nth j (nth i m []) z.
  (** su3_3_anyon_category.cpp:80-94: a sub-block, in row-major order *)
  Definition slice2d_block (m : list (list K)) (r0 r1 c0 c1 : nat) : list K :=
    flat_map (fun i => map (fun j => mat_get m (r0 + i) (c0 + j)) (seq 0 (c1 - c0))) (seq 0 (r1 - r0)).
  Definition flat2 (m : list (list K)) : list K := concat m.
  (** [reshaped(4, shape)] keeps the row-major data; an element is read at the flat index *)
  Definition reshaped (data : list K) (s1 s2 s3 : nat) (mu nu kap lam : nat) : K :=
    nth (((mu * s1 + nu) * s2 + kap) * s3 + lam)%nat data z.
  (** position of the first element satisfying p *)
  Fixpoint find_index (p : Z -> bool) (l : list Z) (i : nat) : option nat :=
    match l with
    | [] => None
    | x :: r => if p x then Some i else find_index p r (S i)
    end.
  Definition count_z (p : Z -> bool) (l : list Z) : nat := length (filter p l).
  Definition all_non_trivial (l : list Z) : bool := forallb (fun q => negb (q =? 0)) l.
  (** su3_3_anyon_category.cpp:271-364, for the sectors with allowed fusion (the code returns
      one_4D otherwise, see [su33_F]) *)
  Definition su33_F_allowed (a b c d e f : sector) (mu nu kap lam : nat) : K :=
    let abcd := [q0 a; q0 b; q0 c; q0 d] in
    let n8 := count_z (fun q => q =? 1) abcd in
    let s1 := sym_n SU3_3 a e d in
    let s2 := sym_n SU3_3 a b f in
    let s3 := sym_n SU3_3 f c d in
    let default := o1 o in
    if (n8 =? 4)%nat then
      let '(e0, e1) := f4_slices (q0 e) in
      let '(f0, f1) := f4_slices (q0 f) in
      reshaped (slice2d_block su33_f4 f0 f1 e0 e1) s1 s2 s3 mu nu kap lam
    else if (n8 =? 3)%nat then
      let index := match find_index (fun q => negb (q =? 1)) abcd 0 with Some i => i | None => 0%nat end in
      let not_8 := nth index abcd 0 in
      if not_8 =? 0 then reshaped (flat2 su33_f1) s1 s2 s3 mu nu kap lam
      else if ((not_8 =? 2) && negb (index =? 1)%nat) || ((not_8 =? 3) && (index =? 1)%nat)
      then reshaped (flat2 su33_f2) s1 s2 s3 mu nu kap lam
      else reshaped (flat2 su33_f3) s1 s2 s3 mu nu kap lam
    else if (n8 =? 2)%nat && all_non_trivial abcd then
      match find_index (fun q => q =? 1) abcd 0 with
      | Some i1 =>
          match find_index (fun q => q =? 1) (skipn (S i1) abcd) (S i1) with
          | Some i2 => if (i2 =? S i1)%nat || ((i1 =? 0)%nat && (i2 =? 3)%nat)
                       then oopp o (o1 o) else default
          | None => default
          end
      | None => default
      end
    else if (n8 =? 0)%nat && all_non_trivial abcd then
      let n10 := count_z (fun q => q =? 2) abcd in
      let index :=
        if (n10 =? 3)%nat then
          match find_index (fun q => negb (q =? 2)) abcd 0 with Some i => i | None => 1%nat end
        else if (n10 =? 1)%nat then
          match find_index (fun q => q =? 2) abcd 0 with Some i => i | None => 1%nat end
        else 1%nat in
      if (index =? 0)%nat || (index =? 2)%nat then oopp o (o1 o) else default
    else default.
  (** su3_3_anyon_category.cpp:277-280 + the memo table of lines 214-240, 461-466 *)
  Definition su33_F : Fsym K := fun a b c d e f mu nu kap lam =>
    if negb (can_fuse_to SU3_3 b c e) || negb (can_fuse_to SU3_3 a e d) ||
       negb (can_fuse_to SU3_3 a b f) || negb (can_fuse_to SU3_3 f c d)
    then o1 o else su33_F_allowed a b c d e f mu nu kap lam.
  (** su3_3_anyon_category.cpp:490-503 *)
  Definition su33_R : Rsym K := fun a b c mu =>
    if (q0 a =? 1) && (q0 b =? 1) then
      if q0 c =? 1 then nth mu [- ii; ii] z else - e
    else e.
  (** su3_3_anyon_category.cpp:243-268, 505-517 *)
  Definition su33_C : Fsym K := fun a b c d e f mu nu kap lam =>
    if can_fuse_to SU3_3 a b e && can_fuse_to SU3_3 e c d &&
       can_fuse_to SU3_3 a c f && can_fuse_to SU3_3 f b d
    then default_c_symbol o su33_F su33_R a b c d e f mu nu kap lam else o1 o.
End SU33.
(** su3_3_anyon_category.cpp:468-479 *)
Definition su33_fs (a : sector) : Z := 1.
Definition su33_qdim (a : sector) : R := if q0 a =? 1 then 3%R else 1%R.
(** exact complex instance of the tables *)
Definition su33_Fc : Fsym C :=
  su33_F Cops (RtoC (1 / 3)) (RtoC (1 / 2)) (RtoC (sqrt 3 / 2)) (RtoC (1 / sqrt 3)) (RtoC (1 / sqrt 12)).
Definition su33_Rc : Rsym C := su33_R Cops (0, 1)%R.
Definition su33_Cc : Fsym C :=
  su33_C Cops (RtoC (1 / 3)) (RtoC (1 / 2)) (RtoC (sqrt 3 / 2)) (RtoC (1 / sqrt 3)) (RtoC (1 / sqrt 12)) (0, 1)%R.

(** * Z_N anyons *)
(** zn_anyon_category.cpp:61-110, 151-171 and zn_anyon_category2.cpp:69-118, 159-179: the same
    fusion rules as ZN (zn.cpp) *)
Definition ZNAnyon (N : Z) : symmetry := {|
  sym_len := 1;
  sym_valid := fun a => len1 a && int16b (q0 a) && ((0 <=? q0 a) && (q0 a <? N));
  sym_trivial := [0];
  sym_outcomes := fun a b => [[mod_n (q0 a + q0 b) N]];
  sym_n := fun _ _ _ => 1%nat;
  sym_dual := fun a => [mod_n (- q0 a) N];
  sym_dim := fun _ => 1%nat;
|}.
(** std::pow(phase, (double)exp) for phase = exp(i t) with t in the range of exp's argument:
    modelled by exp(i t exp), valid for integer exponents *)
Definition phase_pow (t : R) (k : Z) : C := cis (IZR k * t).
(** zn_anyon_category.cpp:16-22, 53: n = n_ % N_ *)
Definition zna_angle (N n : Z) : R := (2 * PI * IZR (Z.rem n N) / IZR N)%R.
Definition zna_F : Fsym C := fun _ _ _ _ _ _ _ _ _ _ => C1.
Definition zna_R (N n : Z) : Rsym C := fun a b _ _ => phase_pow (zna_angle N n) (q0 a * q0 b).
Definition zna_C (N n : Z) : Fsym C := fun _ b c _ _ _ _ _ _ _ => phase_pow (zna_angle N n) (q0 b * q0 c).
(** zn_anyon_category.cpp:50: the flag has_complex_topological_data *)
Definition zna_has_complex (N n : Z) : bool := 0 <? Z.rem n N.
(** zn_anyon_category2.cpp:16-34, 53-55, 181-194, 202-219 *)
Definition zna2_angle (N n : Z) : R := (2 * PI * (IZR (Z.rem n N) + / 2) / IZR N)%R.
Definition parity_sign (k : Z) : Z := if Z.rem k 2 =? 0 then 1 else -1.
Definition zna2_F (N : Z) : Fsym C := fun a b c _ _ _ _ _ _ _ =>
  RtoC (IZR (parity_sign (q0 a * Z.quot (q0 b + q0 c) N))).
Definition zna2_fs (a : sector) : Z := parity_sign (q0 a).
Definition zna2_R (N n : Z) : Rsym C := fun a b _ _ => phase_pow (zna2_angle N n) (q0 a * q0 b).
Definition zna2_C (N n : Z) : Fsym C := fun _ b c _ _ _ _ _ _ _ => phase_pow (zna2_angle N n) (q0 b * q0 c).

(** quantum_double_zn_anyon_category.cpp:51-67, 69-112, 165-187: two Z_N charges *)
Definition q1 (a : sector) : Z := nth 1 a 0.
Definition QuantumDouble (N : Z) : symmetry := {|
  sym_len := 2;
  sym_valid := fun a => (length a =? 2)%nat && ((0 <=? q0 a) && (q0 a <? N)) && ((0 <=? q1 a) && (q1 a <? N))
                        && int16b (q0 a) && int16b (q1 a);
  sym_trivial := [0; 0];
  sym_outcomes := fun a b => [[mod_n (q0 a + q0 b) N; mod_n (q1 a + q1 b) N]];
  sym_n := fun _ _ _ => 1%nat;
  sym_dual := fun a => [mod_n (to_i16 (- q0 a)) N; mod_n (to_i16 (- q1 a)) N];
  sym_dim := fun _ => 1%nat;
|}.
(** quantum_double_zn_anyon_category.cpp:16-21, 189-229 *)
Definition qd_angle (N : Z) : R := (2 * PI / IZR N)%R.
Definition qd_R (N : Z) : Rsym C := fun a b _ _ => phase_pow (qd_angle N) (q0 a * q1 b).
Definition qd_C (N : Z) : Fsym C := fun _ b c _ _ _ _ _ _ _ => phase_pow (qd_angle N) (q0 b * q1 c).
(** quantum_double_zn_anyon_category.cpp:231-244 *)
Definition qd_all_sectors (N : Z) : list sector :=
  flat_map (fun i => map (fun j => [to_i16 (Z.of_nat j); to_i16 (Z.of_nat i)]) (seq 0 (Z.to_nat N)))
    (seq 0 (Z.to_nat N)).
