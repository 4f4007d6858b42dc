(** Which instructions the engine emits. *)
From Coq Require Import ZArith List Bool.
From Verif Require Import Util StableSort GridModel PermLegsModel PermLegsSpec PermLegsProofs PermLegsProofs2 FtMapSpec FtMapProofs13.
Import ListNotations.
Set Implicit Arguments. Unset Strict Implicit.
Open Scope nat_scope.

Section Keeps.
  Variable num_legs : nat.
  Variable sym : bool.
  Variable Inv : engine -> Prop.
  Definition keeps (T : Type) (m : M T) : Prop := forall st a st', m st = Ok (a, st') -> Inv st -> Inv st'.
  Lemma keeps_bind (A B : Type) (m : M A) (f : A -> M B) : keeps m -> (forall a, keeps (f a)) -> keeps (bind m f).
  Proof. intros H1 H2 st b st'. unfold bind. destruct (m st) as [[a s]|] eqn:E; [|discriminate]. intros E' I. exact (H2 a _ _ _ E' (H1 _ _ _ E I)). Qed.
  Lemma keeps_ret (A : Type) (a : A) : keeps (ret a).
  Proof. intros st b st' [= _ <-] I. exact I. Qed.
  Lemma keeps_err (A : Type) e : keeps (err A e).
  Proof. intros st b st'. discriminate. Qed.
  Lemma keeps_get : keeps get.
  Proof. intros st b st' [= _ <-] I. exact I. Qed.
  Lemma keeps_check b : keeps (check b).
  Proof. destruct b; [apply keeps_ret|apply keeps_err]. Qed.
  Lemma keeps_each (A : Type) (l : list A) f : (forall x, keeps (f x)) -> keeps (for_each l f).
  Proof. intros H. induction l as [|x l IH]; [apply keeps_ret|]. cbn [for_each]. apply keeps_bind; auto. Qed.
  Lemma keeps_compare i j : keeps (compare_levels sym i j).
  Proof. unfold compare_levels. destruct sym; [apply keeps_ret|]. apply keeps_bind; [apply keeps_get|]. intros st. destruct (nth i (levels st) None); [|apply keeps_err]. destruct (nth j (levels st) None); [|apply keeps_err]. destruct (_ =? _)%Z; [apply keeps_err|apply keeps_ret]. Qed.
  Hypothesis SWAP : forall idx over, keeps (swap num_legs sym idx over).
  Hypothesis BEND : forall down, keeps (bend num_legs down).
  Hypothesis EMIT : forall c n over, keeps (emit (Twist c (seq 0 n) over)).
  Lemma keeps_move a b over : keeps (move_leg num_legs sym a b over).
  Proof.
    unfold move_leg. destruct (to_valid_idx a num_legs) as [x|]; [|apply keeps_err]. destruct (to_valid_idx b num_legs) as [y|]; [|apply keeps_err]. apply keeps_bind; [apply keeps_get|]. intros st. apply keeps_bind; [apply keeps_check|]. intros _.
    destruct (x <? y); apply keeps_each; intros; apply SWAP.
  Qed.
  Lemma keeps_gl l : forall n, keeps (gather_left num_legs sym l n).
  Proof. induction l as [|x l IH]; intros n; [apply keeps_ret|]. cbn [gather_left]. apply keeps_bind; [apply keeps_get|]. intros st. destruct (should_eqb _ _); [|apply IH]. apply keeps_bind; [apply keeps_move|]. intros _. apply IH. Qed.
  Lemma keeps_gr l : forall n, keeps (gather_right num_legs sym l n).
  Proof. induction l as [|x l IH]; intros n; [apply keeps_ret|]. cbn [gather_right]. apply keeps_bind; [apply keeps_get|]. intros st. destruct (should_eqb _ _); [|apply IH]. apply keeps_bind; [apply keeps_move|]. intros _. apply IH. Qed.
  Lemma keeps_evaluate : keeps (evaluate_instructions num_legs sym).
  Proof.
    unfold evaluate_instructions. apply keeps_bind; [apply keeps_get|]. intros st. apply keeps_bind; [apply keeps_check|]. intros _. apply keeps_bind.
    { unfold do_initial_codomain_permutation. apply keeps_bind; [apply keeps_get|]. intros st1. apply keeps_bind; [apply keeps_gl|]. intros nl. apply keeps_bind; [apply keeps_gr|]. intros nr. apply keeps_ret. }
    intros lr. apply keeps_bind.
    { unfold do_codomain_bends. apply keeps_bind; [apply keeps_each; intros; apply BEND|]. intros _. apply keeps_bind; [destruct (0 <? fst lr); [apply EMIT|apply keeps_ret]|]. intros _. apply keeps_each. intros n. apply keeps_bind; [apply keeps_get|]. intros s1.
      apply keeps_bind; [apply keeps_move|]. intros _. apply keeps_bind; [apply BEND|]. intros _. apply keeps_bind; [apply keeps_get|]. intros s2. apply keeps_move. }
    intros _. apply keeps_bind.
    { unfold do_domain_permutation. apply keeps_bind; [apply keeps_get|]. intros s1. cbv zeta. destruct (negb _); [apply keeps_err|]. destruct (permutation_as_swaps _); [|apply keeps_err]. apply keeps_bind; [apply keeps_each; intros; apply SWAP|]. intros _. apply keeps_ret. }
    intros lr2. apply keeps_bind.
    { unfold do_domain_bends. apply keeps_bind; [apply keeps_each; intros; apply BEND|]. intros _. apply keeps_bind; [destruct (0 <? fst lr2); [apply EMIT|apply keeps_ret]|]. intros _. apply keeps_each. intros n. apply keeps_bind; [apply keeps_get|]. intros s1.
      apply keeps_bind; [apply keeps_move|]. intros _. apply keeps_bind; [apply BEND|]. intros _. apply keeps_bind; [apply keeps_get|]. intros s2. apply keeps_move. }
    intros _. apply keeps_bind.
    { unfold do_final_codomain_permutation. apply keeps_bind; [apply keeps_get|]. intros s1. cbv zeta. destruct (negb _); [apply keeps_err|]. destruct (permutation_as_swaps _); [|apply keeps_err]. apply keeps_each. intros; apply SWAP. }
    intros _. apply keeps_bind; [apply keeps_get|]. intros s1. apply keeps_bind; [apply keeps_check|]. intros _. apply keeps_bind; [apply keeps_check|]. intros _. apply keeps_ret.
  Qed.
  Lemma bind_ok (A B : Type) (m : M A) (f : A -> M B) st b st' : bind m f st = Ok (b, st') -> exists a s, m st = Ok (a, s) /\ f a s = Ok (b, st').
  Proof. unfold bind. destruct (m st) as [[a s]|]; [|discriminate]. intros E. now exists a, s. Qed.
  Lemma evaluate_result st l st' : evaluate_instructions num_legs sym st = Ok (l, st') -> l = instructions st'.
  Proof.
    unfold evaluate_instructions. intros E. do 6 (apply bind_ok in E; destruct E as [? [? [_ E]]]). 
    apply bind_ok in E. destruct E as [? [? [_ E]]]. apply bind_ok in E. destruct E as [? [? [G E]]]. injection G as <- <-.
    apply bind_ok in E. destruct E as [? [? [C1 E]]]. apply bind_ok in E. destruct E as [? [? [C2 E]]].
    unfold check, ret, err in C1, C2, E. destruct (forallb _ _) in C1; [|discriminate]. destruct (forallb _ _) in C2; [|discriminate]. injection C1 as _ <-. injection C2 as _ <-. injection E as <- <-. reflexivity.
  Qed.
End Keeps.

Lemma make_engine_start nc nd ci di lv br st : make_engine nc nd ci di lv br = Ok st -> instructions st = [].
Proof. unfold make_engine. destruct (place ci _ _ _ _ _ _ _) as [[tp sb]|]; [|discriminate]. destruct (place di _ _ _ _ _ _ _) as [[tp' sb']|]; [|discriminate]. intros [= <-]. reflexivity. Qed.

Lemma run_supported r l : run r = Ok l -> Forall supported l.
Proof.
  unfold run, permute_instructions. destruct (make_engine _ _ _ _ _ _) as [st|] eqn:ME; [|discriminate]. destruct (evaluate_instructions _ _ st) as [[l' st']|] eqn:EV; [|discriminate]. intros [= <-]. rewrite (evaluate_result EV).
  refine (@keeps_evaluate _ _ (fun st => Forall supported (instructions st)) _ _ _ _ _ _ EV _).
  - intros idx over s a s'. unfold swap. destruct (to_valid_idx idx _) as [i|]; [|discriminate]. destruct (_ <=? _); [discriminate|]. unfold bind. destruct (match over with Some b => ret b | None => _ end s) as [[ov s1]|] eqn:E; [|discriminate].
    assert (s1 = s). { destruct over; [now injection E|]. unfold compare_levels, bind, get, ret, err in E. destruct (r_sym r); [now injection E|]. destruct (nth i _ None); [|discriminate]. destruct (nth (i + 1) _ None); [|discriminate]. destruct (_ =? _)%Z; [discriminate|now injection E]. }
    subst s1. cbn [get]. destruct (check _ s) as [[u s2]|] eqn:C; [|discriminate]. unfold put. intros [= _ <-] I. cbn [instructions]. apply Forall_app. split; [exact I|]. repeat constructor. now destruct (i <? _).
  - intros down s a s'. unfold bend, bind. cbn [get]. destruct down.
    + destruct (_ <=? _); [discriminate|]. destruct (check _ s) as [[u s2]|] eqn:C; [|discriminate]. intros [= _ <-] I. cbn [instructions]. apply Forall_app. split; [exact I|repeat constructor].
    + destruct (_ =? 0); [discriminate|]. destruct (check _ s) as [[u s2]|] eqn:C; [|discriminate]. intros [= _ <-] I. cbn [instructions]. apply Forall_app. split; [exact I|repeat constructor].
  - intros c n over s a s' [= _ <-] I. cbn [instructions]. apply Forall_app. split; [exact I|]. constructor; [|constructor]. right. rewrite seq_length. apply seq_is_perm.
  - rewrite (make_engine_start ME). constructor.
Qed.

Lemma place_none idcs target bends br num : (forall i, In i idcs -> bends i = false) -> forall k tp sb tp' sb', place idcs target bends br k num tp sb = Ok (tp', sb') -> sb' = sb.
Proof.
  intros H. induction idcs as [|i l IH]; intros k tp sb tp' sb'; cbn [place]; [now intros [= _ <-]|]. destruct (num <=? i); [discriminate|]. rewrite H by now left. apply IH. intros; apply H; now right.
Qed.
(** no leg changes sides: no bends *)
Lemma run_no_bend r l : (forall i, In i (r_cod r) -> i < r_nc r) -> (forall i, In i (r_dom r) -> r_nc r <= i) -> run r = Ok l -> Forall no_bend l.
Proof.
  intros HC HD. unfold run, permute_instructions. destruct (make_engine _ _ _ _ _ _) as [st|] eqn:ME; [|discriminate]. destruct (evaluate_instructions _ _ st) as [[l' st']|] eqn:EV; [|discriminate]. intros [= <-]. rewrite (evaluate_result EV).
  assert (I0 : Forall (fun b => b = SNone) (should_bend st)).
  { unfold make_engine in ME. destruct (place (r_cod r) _ _ _ _ _ _ _) as [[tp sb]|] eqn:E1; [|discriminate]. destruct (place (r_dom r) _ _ _ _ _ _ _) as [[tp' sb']|] eqn:E2; [|discriminate]. injection ME as <-. cbn [should_bend].
    apply place_none in E1; [|intros i I; apply Nat.leb_gt; now apply HC]. apply place_none in E2; [|intros i I; apply Nat.ltb_ge; now apply HD]. subst sb' sb. apply Forall_forall. intros x I. now apply repeat_spec in I. }
  refine (proj2 (@keeps_evaluate _ _ (fun st => Forall (fun b => b = SNone) (should_bend st) /\ Forall no_bend (instructions st)) _ _ _ _ _ _ EV (conj I0 _))).
  - intros idx over s a s'. unfold swap. destruct (to_valid_idx idx _) as [i|]; [|discriminate]. destruct (_ <=? _); [discriminate|]. unfold bind. destruct (match over with Some b => ret b | None => _ end s) as [[ov s1]|] eqn:E; [|discriminate].
    assert (s1 = s). { destruct over; [now injection E|]. unfold compare_levels, bind, get, ret, err in E. destruct (r_sym r); [now injection E|]. destruct (nth i _ None); [|discriminate]. destruct (nth (i + 1) _ None); [|discriminate]. destruct (_ =? _)%Z; [discriminate|now injection E]. }
    subst s1. cbn [get]. destruct (check _ s) as [[u s2]|] eqn:C; [|discriminate]. unfold put. intros [= _ <-] [I1 I2]. cbn [instructions should_bend]. split.
    + apply Forall_forall. intros x Ix. apply (Permutation_in _ (swap_at_perm i _)) in Ix. rewrite Forall_forall in I1. now apply I1.
    + apply Forall_app. split; [exact I2|]. repeat constructor. now destruct (i <? _).
  - assert (NN : forall s k, Forall (fun b => b = SNone) (should_bend s) -> nth k (should_bend s) SNone = SNone) by (intros s k I; destruct (Nat.lt_ge_cases k (length (should_bend s))); [rewrite Forall_forall in I; now apply I, nth_In|now apply nth_overflow]).
    intros down s a s' E [I1 I2]. exfalso. unfold bend, bind in E. cbn [get] in E. destruct down.
    + destruct (_ <=? _); [discriminate|]. unfold check in E. rewrite (NN _ _ I1) in E. discriminate.
    + destruct (_ =? 0); [discriminate|]. unfold check in E. rewrite (NN _ _ I1) in E. discriminate.
  - intros c n over s a s' [= _ <-] [I1 I2]. cbn [instructions should_bend]. split; [exact I1|]. apply Forall_app. split; [exact I2|]. repeat constructor.
  - rewrite (make_engine_start ME). constructor.
Qed.
