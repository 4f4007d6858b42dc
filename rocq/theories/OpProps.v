(** Theorems for C73: the operator names of a site. *)
From Coq Require Import Ascii List Bool Arith Lia.
From Verif Require Import Util OpModel OpSpec OpProofs.
Import ListNotations.

(** get_op of words separated by single spaces is the product of the operators with these names from left to right; the first word that is not an operator is reported.
    An empty word at the end is ignored (see below). *)
Theorem C73_get_op_is_the_product : forall (O : Type) (compose : O -> O -> O) (s : site O) ws, ws <> [] -> Forall word ws -> (last ws [] <> [] \/ length ws = 1) ->
  get_op compose s (join ws) = product compose s ws.
Proof. intros. now apply get_op_join. Qed.
Print Assumptions C73_get_op_is_the_product.

(** Every name is of this form. *)
Theorem C73_every_name_is_words : forall n : name, exists ws, ws <> [] /\ Forall word ws /\ n = join ws.
Proof. exact every_name. Qed.
Print Assumptions C73_every_name_is_words.

(** A space at the end of a name is ignored, ... *)
Theorem C73_trailing_space : forall (O : Type) (compose : O -> O -> O) (s : site O) n, get_op compose s (n ++ [" "%char]) = get_op compose s n \/ (exists m, n = m ++ [" "%char]).
Proof. exact trailing. Qed.
Print Assumptions C73_trailing_space.
(** ... one at the beginning is not: names separated by whitespace are documented, but a leading or a double space is an error for every site that can come about without an operator
    whose name is empty. *)
Theorem C73_spaces_refuted : forall (O : Type) (compose : O -> O -> O) (s : site O) n m, lookup s [] = None ->
  get_op compose s (" "%char :: n) = OErr (NoOperator []) /\
  (m <> [] -> forall w, word w -> contains s w = true -> get_op compose s (w ++ " "%char :: " "%char :: m) = OErr (NoOperator [])).
Proof. exact spaces. Qed.
Print Assumptions C73_spaces_refuted.

(** multiply_op_names joins names such that get_op gives the product of the operators: the same as multiply_operators of the names, for any names that are not empty and do not end with
    a space (each may be a product itself).  The multiplication has to be associative. *)
Theorem C73_names_multiply : forall (O : Type) (compose : O -> O -> O) (s : site O) (names : list name), associative compose -> names <> [] ->
  Forall (fun n => n <> [] /\ last n "a"%char <> " "%char) names ->
  get_op compose s (multiply_op_names names) = multiply_operators compose s (map inl names).
Proof. exact names_multiply. Qed.
Print Assumptions C73_names_multiply.
(** multiply_operators takes names and operators: the result is their product from left to right, or the error of the first name that cannot be looked up. *)
Theorem C73_multiply_operators : forall (O : Type) (compose : O -> O -> O) (s : site O) x o xs os, means compose s x o -> Forall2 (means compose s) xs os ->
  multiply_operators compose s (x :: xs) = OOk (fold_left compose os o) /\
  (forall n e ys, get_op compose s n = OErr e -> multiply_operators compose s (x :: xs ++ inl n :: ys) = OErr e).
Proof. intros O compose s x o xs os M F. split; [now apply mixed_ok|]. intros n e ys E. exact (@mixed_error O compose s (x :: xs) (o :: os) n e ys (Forall2_cons _ _ M F) E). Qed.
Print Assumptions C73_multiply_operators.
Theorem C73_no_names : forall (O : Type) (compose : O -> O -> O) (identity : O) s, history identity s ->
  get_op compose s (multiply_op_names []) = OOk identity /\ multiply_operators compose s [] = OOk identity.
Proof. exact no_names. Qed.
Print Assumptions C73_no_names.

(** Over the whole life of a site: the names are distinct words, "Id" is the identity, ... *)
Theorem C73_names_are_words : forall (O : Type) (identity : O) (s : site O), history identity s -> NoDup (map fst s) /\ Forall word (map fst s) /\ lookup s id_name = Some identity.
Proof. exact history_ok. Qed.
Print Assumptions C73_names_are_words.
(** ... adding an operator makes it available under its name, and changes nothing that was available before: neither operators nor products. *)
Theorem C73_add : forall (O : Type) (compose : O -> O -> O) (s s' : site O) n o, add_onsite_operator s n (Some o) = OOk s' ->
  get_op compose s' n = OOk o /\ contains s' n = true /\
  (forall m r, get_op compose s m = OOk r -> get_op compose s' m = OOk r) /\
  (forall m, m <> n -> contains s' m = contains s m).
Proof. exact add_ok. Qed.
Print Assumptions C73_add.
(** It fails exactly if the name is taken, has a space, or the operator does not fit. *)
Theorem C73_add_errors : forall (O : Type) (s : site O) n o, (exists s', add_onsite_operator s n o = OOk s') <-> contains s n = false /\ word n /\ o <> None.
Proof. exact add_errors. Qed.
Print Assumptions C73_add_errors.

(** An operator of the site is valid and is returned itself. *)
Theorem C73_valid_opname : forall (O : Type) (compose : O -> O -> O) (identity : O) (s : site O) n, history identity s -> contains s n = true -> exists o, lookup s n = Some o /\ get_op compose s n = OOk o.
Proof. exact valid_ok. Qed.
Print Assumptions C73_valid_opname.
(** The name of a product, which multiply_op_names calls valid, is not valid for valid_opname. *)
Theorem C73_product_names_refuted : forall (O : Type) (compose : O -> O -> O) (identity : O) (s : site O) n m, history identity s -> contains s n = true -> contains s m = true -> m <> [] ->
  contains s (multiply_op_names [n; m]) = false /\ exists o, get_op compose s (multiply_op_names [n; m]) = OOk o.
Proof. exact product_names. Qed.
Print Assumptions C73_product_names_refuted.

(** ** Examples *)
Definition letters (n : nat) : name := [ascii_of_nat (65 + n)].
Definition example_site : site (list nat) := [(id_name, []); (letters 0, [0]); (letters 1, [1])].
Example example_history : history [] example_site.
Proof. apply created with (ops := [(letters 0, Some [0]); (letters 1, Some [1])]). reflexivity. Qed.
Example example_product : get_op (@app nat) example_site (multiply_op_names [letters 1; letters 0; letters 1]) = OOk [1; 0; 1].
Proof. reflexivity. Qed.
Example example_missing : get_op (@app nat) example_site (join [letters 1; letters 2; letters 3]) = OErr (NoOperator (letters 2)).
Proof. reflexivity. Qed.
Example example_mixed : multiply_operators (@app nat) example_site [inl (letters 1); inr [7; 8]; inl (join [letters 0; letters 1])] = OOk [1; 7; 8; 0; 1].
Proof. reflexivity. Qed.
