(** Specification of the consistency equations of F, R and C symbols, in the conventions of
    cyten (base_symmetry.cpp:138-184 for the sector constraints; axes [mu nu kappa lambda] of an
    F symbol belong to (b c -> e), (a e -> d), (a b -> f), (f c -> d)).  The same equations are
    the ones that tests/python_tests/test_symmetries.py:530-690 samples numerically. *)
From Verif Require Import Util RowModel SymModel.
Set Implicit Arguments.
Unset Strict Implicit.
Open Scope nat_scope.

(** scalars: a commutative ring with conjugation *)
Record ops (K : Type) := Ops {
  o0 : K; o1 : K; oadd : K -> K -> K; omul : K -> K -> K; oopp : K -> K; oconj : K -> K;
}.
Definition osum K (o : ops K) (l : list K) : K := fold_right (oadd o) (o0 o) l.
Definition sumn K (o : ops K) (n : nat) (f : nat -> K) : K := osum o (map f (seq 0 n)).

Definition Fsym (K : Type) := sector -> sector -> sector -> sector -> sector -> sector ->
  nat -> nat -> nat -> nat -> K.
Definition Rsym (K : Type) := sector -> sector -> sector -> nat -> K.

Section Spec.
  Variable S : symmetry.
  Variable K : Type.
  Variable o : ops K.
  Variable F : Fsym K.
  Variable R : Rsym K.
  Variable C : Fsym K.
  Notation N := (n_symbol S).
  Notation out := (sym_outcomes S).
  Notation valid a := (sym_valid S a = true).
  Notation fuses a b c := (can_fuse_to S a b c = true).
  Infix "**" := (omul o) (at level 40, left associativity).

  (** sum_s F(fcde;jg) F(abje;if) = sum_h F(abcg;hf) F(ahde;ig) F(bcdi;jh) *)
  Definition pentagon_lhs a b c d e f g j i (mu nu kap rho gam del : nat) : K :=
    sumn o (N f j e) (fun s => F f c d e j g gam s nu rho ** F a b j e i f del kap mu s).
  Definition pentagon_rhs a b c d e f g j i (mu nu kap rho gam del : nat) : K :=
    osum o (map (fun h =>
      sumn o (N b c h) (fun s => sumn o (N a h g) (fun l => sumn o (N h d i) (fun w =>
        F a b c g h f s l mu nu ** (F a h d e i g w kap l rho ** F b c d i j h gam del s w)))))
      (out b c)).
  Definition pentagon : Prop :=
    forall a b c d, valid a -> valid b -> valid c -> valid d ->
    forall f, In f (out a b) -> forall g, In g (out f c) -> forall e, In e (out g d) ->
    forall j, In j (out c d) -> fuses f j e -> forall i, In i (out b j) -> fuses a i e ->
    forall mu nu kap rho gam del,
      mu < N a b f -> nu < N f c g -> kap < N a i e -> rho < N g d e -> gam < N c d j ->
      del < N b j i ->
      pentagon_lhs a b c d e f g j i mu nu kap rho gam del =
      pentagon_rhs a b c d e f g j i mu nu kap rho gam del.

  (** R(ca;e) F(acbd;ge) R(cb;g) = sum_f F(cabd;fe) R(cf;d) F(abcd;gf), and the same equation
      with all R replaced by their conjugates (the inverse braiding). *)
  Definition hexagon_lhs (R : Rsym K) a b c d e g (al be mu nu : nat) : K :=
    R c a e al ** (F a c b d g e mu nu al be ** R c b g mu).
  Definition hexagon_rhs (R : Rsym K) a b c d e g (al be mu nu : nat) : K :=
    osum o (map (fun f => sumn o (N a b f) (fun de => sumn o (N c f d) (fun si =>
      F c a b d f e de si al be ** (R c f d si ** F a b c d g f mu nu de si)))) (out a b)).
  Definition hexagon_for (R : Rsym K) : Prop :=
    forall a b c, valid a -> valid b -> valid c ->
    forall e, In e (out a c) -> forall d, In d (out e b) -> forall g, In g (out c b) -> fuses a g d ->
    forall al be mu nu, al < N a c e -> be < N e b d -> mu < N c b g -> nu < N a g d ->
      hexagon_lhs R a b c d e g al be mu nu = hexagon_rhs R a b c d e g al be mu nu.
  Definition hexagon : Prop :=
    hexagon_for R /\ hexagon_for (fun a b c m => oconj o (R a b c m)).

  (** unitarity of F (rows (e,mu,nu)) and unit modulus of R *)
  Definition F_gram a b c d e g (mu nu mu' nu' : nat) : K :=
    osum o (map (fun f => sumn o (N a b f) (fun k => sumn o (N f c d) (fun l =>
      F a b c d e f mu nu k l ** oconj o (F a b c d g f mu' nu' k l)))) (out a b)).
  Definition F_unitary : Prop :=
    forall a b c, valid a -> valid b -> valid c ->
    forall e, In e (out b c) -> forall d, In d (out a e) -> forall g, In g (out b c) -> fuses a g d ->
    forall mu nu mu' nu', mu < N b c e -> nu < N a e d -> mu' < N b c g -> nu' < N a g d ->
      F_gram a b c d e g mu nu mu' nu' =
      (if row_eqb e g && (mu =? mu') && (nu =? nu') then o1 o else o0 o).
  Definition R_unitary : Prop :=
    forall a b, valid a -> valid b -> forall c, In c (out a b) -> forall mu, mu < N a b c ->
      R a b c mu ** oconj o (R a b c mu) = o1 o.

  (** C(abcd;ef) = R(ec;d) F(cabd;ef) conj R(ac;f) on all allowed sectors *)
  Definition C_is_RFR : Prop :=
    forall a b c, valid a -> valid b -> valid c ->
    forall e, In e (out a b) -> forall d, In d (out e c) -> forall f, In f (out a c) -> fuses f b d ->
    forall mu nu kap lam, mu < N a b e -> nu < N e c d -> kap < N a c f -> lam < N f b d ->
      C a b c d e f mu nu kap lam = R e c d nu ** (F c a b d e f mu nu kap lam ** oconj o (R a c f kap)).

  (** trivial braids and moves: F with a trivial incoming leg is the identity, R with a trivial
      leg is 1 *)
  Definition F_trivial : Prop :=
    forall a b c, valid a -> valid b -> valid c ->
    (a = sym_trivial S \/ b = sym_trivial S \/ c = sym_trivial S) ->
    forall e, In e (out b c) -> forall d, In d (out a e) -> forall f, In f (out a b) -> fuses f c d ->
    forall mu nu kap lam, mu < N b c e -> nu < N a e d -> kap < N a b f -> lam < N f c d ->
      F a b c d e f mu nu kap lam = (if mu * N a e d + nu =? kap * N f c d + lam then o1 o else o0 o).
  Definition R_trivial : Prop :=
    forall a, valid a -> R a (sym_trivial S) a 0 = o1 o /\ R (sym_trivial S) a a 0 = o1 o.

  (** Frobenius-Schur indicator and squared quantum dimension from the F symbol:
      base_symmetry.cpp:359-372:  F(a abar a a; 1 1) = chi_a / d_a *)
  Definition FS_qdim (fs qd : sector -> K) : Prop :=
    forall a, valid a ->
      F a (sym_dual S a) a a (sym_trivial S) (sym_trivial S) 0 0 0 0 ** qd a = fs a /\
      (fs a = o1 o \/ fs a = oopp o (o1 o)).
  (** the quantum dimensions are a character of the fusion ring *)
  Definition qdim_character (qd : sector -> K) : Prop :=
    forall a b, valid a -> valid b ->
      qd a ** qd b = osum o (map (fun c => sumn o (N a b c) (fun _ => qd c)) (out a b)).

  Record braided_category (fs qd : sector -> K) : Prop := {
    bc_pentagon : pentagon;
    bc_hexagon : hexagon;
    bc_F_unitary : F_unitary;
    bc_R_unitary : R_unitary;
    bc_F_trivial : F_trivial;
    bc_R_trivial : R_trivial;
    bc_fs : FS_qdim fs qd;
    bc_qdim : qdim_character qd;
  }.
End Spec.
