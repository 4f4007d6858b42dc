(** The irrep index (combinatorial number system) and the lookup keys of SUN. *)
From Coq Require Import String Ascii DecimalString DecimalFacts Decimal DecimalPos DecimalZ.
From Verif Require Import Util RowModel SymModel SunModel SunProofs.
Set Implicit Arguments. Unset Strict Implicit.
Open Scope nat_scope.

Fixpoint choose (n k : nat) : nat :=
  match n, k with
  | _, 0 => 1
  | 0, S _ => 0
  | S n, S k => choose n k + choose n (S k)
  end.
Lemma choose_0 : forall n, choose n 0 = 1.
Proof. destruct n; reflexivity. Qed.
Lemma choose_lt : forall n k, n < k -> choose n k = 0.
Proof. induction n; destruct k; intros; cbn; try lia. rewrite !IHn by lia. reflexivity. Qed.
Lemma choose_diag : forall n, choose n n = 1.
Proof. induction n; cbn; [reflexivity|]. rewrite IHn, choose_lt by lia. reflexivity. Qed.
Lemma absorb : forall n k, S k * choose (S n) (S k) = S n * choose n k.
Proof.
  induction n as [|n IH]; intros k; [destruct k; [reflexivity | cbn; lia]|].
  destruct k as [|k].
  - change (choose (S (S n)) 1) with (choose (S n) 0 + choose (S n) 1). rewrite !choose_0.
    specialize (IH 0). rewrite choose_0 in IH. lia.
  - change (choose (S (S n)) (S (S k))) with (choose (S n) (S k) + choose (S n) (S (S k))).
    pose proof (IH k) as E1. pose proof (IH (S k)) as E2.
    change (choose (S n) (S k)) with (choose n k + choose n (S k)) in *. nia.
Qed.
Lemma choose_sym : forall m k, choose (m + k) k = choose (m + k) m.
Proof.
  induction m as [|m IH]; intros k; [cbn [Nat.add]; rewrite choose_diag, choose_0; reflexivity|].
  induction k as [|k IHk]; [rewrite Nat.add_0_r, choose_0, choose_diag; reflexivity|].
  replace (S m + S k) with (S (m + S k)) by lia. cbn [choose]. rewrite (IH (S k)).
  replace (m + S k) with (S m + k) by lia. rewrite IHk. lia.
Qed.
Lemma choose_mono : forall k n n', n <= n' -> choose n k <= choose n' k.
Proof.
  intros k n n' H. induction H as [|n' H IH]; [lia|]. destruct k; [rewrite !choose_0; lia|]. cbn. lia.
Qed.
Lemma choose_pascal : forall n k, choose (S n) (S k) = choose n k + choose n (S k).
Proof. reflexivity. Qed.

Open Scope Z_scope.
Lemma binomial_loop_spec : forall m k, binomial_loop (Z.of_nat (m + k)) (Z.of_nat k) = Z.of_nat (choose (m + k) k).
Proof.
  intros m k. unfold binomial_loop. rewrite Nat2Z.id.
  replace (Z.of_nat (m + k) - Z.of_nat k) with (Z.of_nat m) by lia.
  induction k as [|k IH]; [cbn; rewrite choose_0; reflexivity|].
  rewrite seq_S, map_app, fold_left_app, IH. cbn [fold_left map]. 
  pose proof (absorb (m + k) k) as E.
  replace (m + S k)%nat with (S (m + k)) by lia. 
  replace (Z.of_nat (choose (m + k) k) * (Z.of_nat m + Z.of_nat (1 + k))) with (Z.of_nat (choose (S (m + k)) (S k)) * Z.of_nat (1 + k)) by nia.
  apply Z.div_mul. lia.
Qed.
Lemma binomial_loop_Z : forall n k, 0 <= k <= n -> binomial_loop n k = Z.of_nat (choose (Z.to_nat n) (Z.to_nat k)).
Proof.
  intros n k H. pose proof (binomial_loop_spec (Z.to_nat (n - k)) (Z.to_nat k)) as E.
  replace (Z.to_nat (n - k) + Z.to_nat k)%nat with (Z.to_nat n) in E by lia. rewrite !Z2Nat.id in E by lia. exact E.
Qed.
Lemma sun_binomial_spec : forall n k, (0 <= n \/ 1 <= k) -> 0 <= k -> sun_binomial n k = if n <? 0 then 0 else Z.of_nat (choose (Z.to_nat n) (Z.to_nat k)).
Proof.
  intros n k H1 H2. unfold sun_binomial.
  destruct (Z.ltb_spec k 0); [lia|]. cbn [orb]. destruct (Z.ltb_spec n k) as [L|L].
  - destruct (Z.ltb_spec n 0); [reflexivity|]. rewrite choose_lt by lia. reflexivity.
  - destruct (Z.ltb_spec n 0); [lia|]. destruct (Z.eqb_spec k 0) as [ -> |]; [rewrite choose_0; reflexivity|]. cbn [orb].
    destruct (Z.eqb_spec k n) as [ -> |]; [rewrite choose_diag; reflexivity|].
    destruct (Z.ltb_spec (n - k) k).
    + rewrite binomial_loop_Z by lia. f_equal. replace (Z.to_nat n) with (Z.to_nat k + Z.to_nat (n - k))%nat by lia. apply choose_sym.
    + rewrite binomial_loop_Z by lia. reflexivity.
Qed.

Open Scope nat_scope.
(* sum over j = 1..m *)
Fixpoint csum (c : nat -> nat) (m : nat) : nat := match m with 0 => 0 | S m => csum c m + choose (c (S m)) (S m) end.
Definition cincr (c : nat -> nat) (m : nat) := forall i j, 1 <= i < j -> j <= m -> c i < c j.
Lemma csum_lt : forall c m, cincr c m -> 1 <= m -> csum c m < choose (S (c m)) m.
Proof.
  intros c m. induction m as [|m IH]; intros H L; [lia|]. cbn [csum]. rewrite choose_pascal.
  destruct m as [|m]; [cbn [csum]; rewrite choose_0; lia|].
  assert (I : csum c (S m) < choose (S (c (S m))) (S m)) by (apply IH; [intros i j A B; apply H; lia | lia]).
  assert (choose (S (c (S m))) (S m) <= choose (c (S (S m))) (S m)) by (apply choose_mono; apply (H (S m) (S (S m))); lia). lia.
Qed.
Lemma csum_top_lt : forall c c' m, 1 <= m -> cincr c m -> c m < c' m -> csum c m < csum c' m.
Proof.
  intros c c' m L I H. destruct m as [|m]; [lia|]. pose proof (csum_lt I L).
  assert (choose (S (c (S m))) (S m) <= choose (c' (S m)) (S m)) by (apply choose_mono; lia). cbn [csum] in *. lia.
Qed.
Lemma csum_inj : forall c c' m, cincr c m -> cincr c' m -> csum c m = csum c' m -> forall j, 1 <= j <= m -> c j = c' j.
Proof.
  intros c c' m. induction m as [|m IH]; intros I I' E j L; [lia|].
  assert (T : c (S m) = c' (S m)).
  { destruct (lt_eq_lt_dec (c (S m)) (c' (S m))) as [[H|H]|H]; [|exact H|]; [pose proof (csum_top_lt (m := S m) ltac:(lia) I H) | pose proof (csum_top_lt (m := S m) ltac:(lia) I' H)]; lia. }
  destruct (Nat.eq_dec j (S m)) as [ -> |NE]; [exact T|]. apply IH; [intros u v ? ?; apply I; lia | intros u v ? ?; apply I'; lia | | lia].
  cbn [csum] in E. rewrite T in E. lia.
Qed.

Definition cshift (N : nat) (a : list Z) (j : nat) : nat := Z.to_nat (nth (N - j - 1) a 0%Z + Z.of_nat j - 1).
Lemma fold_left_sum : forall (A : Type) (f : A -> Z) l x, fold_left (fun s k => (s + f k)%Z) l x = (x + zsum (map f l))%Z.
Proof. induction l as [|y l IH]; intros; cbn; [lia|]. rewrite IH. unfold zsum. cbn. lia. Qed.
Lemma zsum_csum : forall c m, zsum (map (fun j => Z.of_nat (choose (c j) j)) (seq 1 m)) = Z.of_nat (csum c m).
Proof. induction m as [|m IH]; [reflexivity|]. rewrite seq_S, map_app, zsum_app, IH. cbn [csum map]. unfold zsum. cbn [fold_right Nat.add]. lia. Qed.
Lemma rev_seq_map : forall N, map (fun k => N - k) (seq 1 (N - 1)) = rev (seq 1 (N - 1)).
Proof.
  intros N. apply list_eq_nth with (d := 0); [rewrite map_length, rev_length; reflexivity|].
  intros i L. rewrite map_length, seq_length in L. rewrite nth_map_lt with (d := 0) by (rewrite seq_length; lia).
  rewrite rev_nth by (rewrite seq_length; lia). rewrite seq_length, !seq_nth by lia. lia.
Qed.
Lemma S_index_csum : forall N a, weight N a -> S_index N a = Z.of_nat (csum (cshift N a) (N - 1)).
Proof.
  intros N a (HL & HM & H0 & HT). unfold S_index. rewrite fold_left_sum, Z.add_0_l. rewrite <- zsum_csum.
  transitivity (zsum (map (fun j => Z.of_nat (choose (cshift N a j) j)) (rev (seq 1 (N - 1))))).
  - rewrite <- rev_seq_map, map_map. f_equal. apply map_ext_in. intros k Hk. apply in_seq in Hk.
    assert (NN : (nth (N - 1) a 0 <= nth (k - 1) a 0)%Z) by (apply HM; lia).
    rewrite sun_binomial_spec by lia. unfold cshift. replace (N - (N - k) - 1) with (k - 1) by lia.
    destruct (Z.ltb_spec (Z.of_nat (N - k) + nth (k - 1) a 0 - 1)%Z 0%Z); [lia|]. do 2 f_equal; lia.
  - apply zsum_perm, Permutation_map. symmetry. apply Permutation_rev.
Qed.
Lemma cshift_incr : forall N a, weight N a -> cincr (cshift N a) (N - 1).
Proof.
  intros N a (HL & HM & H0 & HT) i j L1 L2. unfold cshift.
  assert (nth (N - i - 1) a 0 <= nth (N - j - 1) a 0)%Z by (apply HM; lia).
  assert (nth (N - 1) a 0 <= nth (N - i - 1) a 0)%Z by (apply HM; lia). lia.
Qed.
Lemma S_index_inj : forall N a b, weight N a -> weight N b -> S_index N a = S_index N b -> a = b.
Proof.
  intros N a b Wa Wb E. rewrite (S_index_csum Wa), (S_index_csum Wb) in E. apply Nat2Z.inj in E.
  pose proof (csum_inj (cshift_incr Wa) (cshift_incr Wb) E) as H.
  destruct Wa as (La & Ma & Za & _). destruct Wb as (Lb & Mb & Zb & _).
  apply list_eq_nth with (d := 0%Z); [congruence|]. intros i Li. rewrite La in Li.
  destruct (Nat.eq_dec i (N - 1)) as [ -> |NE]; [congruence|].
  specialize (H (N - 1 - i) ltac:(lia)). unfold cshift in H. replace (N - (N - 1 - i) - 1) with i in H by lia.
  assert (nth (N - 1) a 0 <= nth i a 0)%Z by (apply Ma; lia). assert (nth (N - 1) b 0 <= nth i b 0)%Z by (apply Mb; lia). lia.
Qed.

(** * Keys *)
Open Scope string_scope.
Fixpoint slashfree (s : string) : bool := match s with "" => true | String c s => negb (Ascii.eqb c "/"%char) && slashfree s end.
Lemma string_app_assoc : forall a b c : string, (a ++ b) ++ c = a ++ (b ++ c).
Proof. induction a as [|x a IH]; intros; cbn; [reflexivity | rewrite IH; reflexivity]. Qed.
Lemma slash_cut : forall s t u v, slashfree s = true -> slashfree t = true -> s ++ "/" ++ u = t ++ "/" ++ v -> s = t /\ u = v.
Proof.
  induction s as [|c s IH]; intros t u v Hs Ht E.
  - destruct t as [|d t]; [cbn in E; injection E as E; auto|]. cbn in E. injection E as E1 E2. subst d. cbn in Ht. discriminate.
  - destruct t as [|d t].
    + cbn in E. injection E as E1 E2. subst c. cbn in Hs. discriminate.
    + cbn in E. injection E as E1 E2. cbn [slashfree] in Hs, Ht. apply andb_true_iff in Hs as [_ Hs]. apply andb_true_iff in Ht as [_ Ht].
      destruct (IH t u v Hs Ht E2) as [ -> -> ]. subst. auto.
Qed.
Lemma uint_slashfree : forall d, slashfree (NilEmpty.string_of_uint d) = true.
Proof. induction d; cbn; auto. Qed.
Lemma to_string_slashfree : forall z, slashfree (to_string z) = true.
Proof.
  intros z. unfold to_string, NilZero.string_of_int. destruct (Z.to_int z) as [d|d]; cbn; [|].
  - unfold NilZero.string_of_uint. destruct d; try reflexivity; apply uint_slashfree.
  - unfold NilZero.string_of_uint. destruct d; try reflexivity; apply uint_slashfree.
Qed.
Lemma to_string_inj : forall x y, to_string x = to_string y -> x = y.
Proof.
  intros x y E. assert (R : forall z, option_map Z.of_int (NilZero.int_of_string (to_string z)) = Some z).
  { intros z. unfold to_string. rewrite NilZero.isi.
    - cbn. f_equal. apply DecimalZ.of_to.
    - destruct z; cbn; try congruence. intros H. injection H as H. revert H. apply DecimalPos.Unsigned.to_uint_nonnil.
    - destruct z; cbn; try congruence. intros H. injection H as H. revert H. apply DecimalPos.Unsigned.to_uint_nonnil. }
  pose proof (R x) as Ex. rewrite E, (R y) in Ex. congruence.
Qed.

(* slash_path as terminated pieces *)
Fixpoint pieces (a : list Z) : string := match a with [] => "" | x :: t => to_string x ++ "/" ++ pieces t end.
Lemma app_nil_r_str : forall s, s ++ "" = s.
Proof. induction s as [|c s IH]; cbn; [reflexivity | rewrite IH; reflexivity]. Qed.
Lemma slash_path_pieces : forall a, a <> [] -> slash_path a = pieces a.
Proof.
  induction a as [|x a IH]; [congruence|]. intros _. unfold slash_path in *. destruct a as [|y t]; [cbn [map String.concat pieces]; rewrite app_nil_r_str; reflexivity|].
  specialize (IH ltac:(discriminate)). cbn [map] in *. change (String.concat "/" (to_string x :: to_string y :: map to_string t)) with (to_string x ++ "/" ++ String.concat "/" (to_string y :: map to_string t)).
  rewrite !string_app_assoc, IH. reflexivity.
Qed.
Lemma pieces_inj : forall a b u v, length a = length b -> pieces a ++ u = pieces b ++ v -> a = b /\ u = v.
Proof.
  induction a as [|x a IH]; intros [|y b] u v L E; cbn [length] in L; try discriminate; [auto|].
  cbn [pieces] in E. rewrite !string_app_assoc in E. apply slash_cut in E as [E1 E2]; try apply to_string_slashfree.
  destruct (IH b u v ltac:(lia) E2) as [ -> -> ]. apply to_string_inj in E1. subst. auto.
Qed.
Lemma cg_key_inj : forall N N' a b a' b', a <> [] -> length a = length b -> length a' = length a -> length b' = length a ->
  cg_key N a b = cg_key N' a' b' -> N = N' /\ a = a' /\ b = b'.
Proof.
  intros N N' a b a' b' NE L1 L2 L3 E. unfold cg_key in E. cbn [append] in E. injection E as E.
  apply slash_cut in E as [E1 E2]; try apply to_string_slashfree. apply to_string_inj in E1.
  rewrite !slash_path_pieces in E2 by (destruct a, b, a', b'; cbn in *; congruence).
  rewrite <- (app_nil_r_str (pieces b)), <- (app_nil_r_str (pieces b')) in E2.
  apply pieces_inj in E2 as [ -> E3]; [|congruence]. apply pieces_inj in E3 as [ -> _]; [auto | congruence].
Qed.
