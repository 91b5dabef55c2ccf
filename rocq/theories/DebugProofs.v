(** Lemmas about the texts of errors. *)

From Coq Require Import NArith Init.Byte Strings.Byte Strings.String Decimal DecimalString DecimalN DecimalPos DecimalFacts.
From mathcomp Require Import ssreflect ssrfun ssrbool eqtype ssrnat seq.
From Verif Require Import Bytes ReedSolomon FK20Verifier Eip7594 Debug SpecDebug.

Set Implicit Arguments.
Unset Strict Implicit.
Unset Printing Implicit Defensive.

Lemma digits_uint u : all is_digit (list_byte_of_string (NilEmpty.string_of_uint u)).
Proof. by elim: u. Qed.
Lemma digits_N n : all is_digit (debug_N n). Proof. exact: digits_uint. Qed.

Lemma lbs_inj s t : list_byte_of_string s = list_byte_of_string t -> s = t.
Proof. by move=> E; rewrite -(string_of_list_byte_of_string s) -(string_of_list_byte_of_string t) E. Qed.
Lemma debug_N_inj : injective debug_N.
Proof.
move=> n m /lbs_inj E; apply: DecimalN.Unsigned.to_uint_inj.
by have := NilEmpty.usu (N.to_uint n); rewrite E NilEmpty.usu => -[].
Qed.

Lemma debug_N_nonnil n : debug_N n <> [::].
Proof.
rewrite /debug_N; have : N.to_uint n <> Decimal.Nil by case: n => // p; exact: DecimalPos.Unsigned.to_uint_nonnil.
by case: N.to_uint.
Qed.

(** Texts that do not begin with a digit *)
Definition stops (s : seq byte) : bool := if s is b :: _ then ~~ is_digit b else true.

Lemma digits_cat (u v s t : seq byte) : all is_digit u -> all is_digit v -> stops s -> stops t ->
  u ++ s = v ++ t -> u = v /\ s = t.
Proof.
elim: u v => [|x u IH] [|y v] //=.
- by move=> _ /andP[Hy _] Hs _ E; rewrite E /= Hy in Hs.
- by move=> /andP[Hx _] _ _ Ht E; rewrite -E /= Hx in Ht.
- by move=> /andP[_ Hu] /andP[_ Hv] Hs Ht [-> E]; have [-> ->] := IH v Hu Hv Hs Ht E.
Qed.
Lemma debug_N_cat n m s t : stops s -> stops t -> debug_N n ++ s = debug_N m ++ t -> n = m /\ s = t.
Proof. by move=> Hs Ht /(digits_cat (digits_N n) (digits_N m) Hs Ht) [/debug_N_inj -> ->]. Qed.

(** The text shows where it ends. *)
Definition delim (T : Type) (f : T -> seq byte) : Prop :=
  forall x y s t, f x ++ s = f y ++ t -> x = y /\ s = t.

Lemma cat_cancel (p s t : seq byte) : p ++ s = p ++ t -> s = t.
Proof. by elim: p => [|x p IH] //= [/IH]. Qed.
Lemma delim_inj (T : Type) (f : T -> seq byte) : delim f -> injective f.
Proof. by move=> D x y E; have [] := D x y [::] [::]; rewrite ?cats0. Qed.

Lemma to_N_byte_inj a b : Byte.to_N a = Byte.to_N b -> a = b.
Proof. by move=> E; have := Byte.of_to_N a; rewrite E Byte.of_to_N => -[]. Qed.

Lemma delim_tail (l l' s t : seq byte) :
  flatten [seq lit ", " ++ debug_N (Byte.to_N x) | x <- l] ++ lit "]" ++ s =
  flatten [seq lit ", " ++ debug_N (Byte.to_N x) | x <- l'] ++ lit "]" ++ t -> l = l' /\ s = t.
Proof.
have st (r : seq byte) s' : stops (flatten [seq lit ", " ++ debug_N (Byte.to_N x) | x <- r] ++ lit "]" ++ s').
  by case: r.
elim: l l' => [|x l IH] [|y l'] //; first by move=> [].
rewrite /= -!catA => -[] /(debug_N_cat (st _ _) (st _ _)) [/to_N_byte_inj -> /IH [-> ->]] //.
Qed.
Lemma delim_bytes : delim debug_bytes.
Proof.
have st (r : seq byte) s' : stops (flatten [seq lit ", " ++ debug_N (Byte.to_N x) | x <- r] ++ lit "]" ++ s').
  by case: r.
have ne n (s t : seq byte) : debug_N n ++ s <> lit "]" ++ t.
  have := digits_N n; have := @debug_N_nonnil n; case: (debug_N n) => [|c r] // _.
  by move=> /andP[Hc _] [Ec]; rewrite Ec in Hc.
move=> [|x l] [|y l'] s t; rewrite /debug_bytes -!catA => /cat_cancel.
- by move=> [].
- by move/esym/ne.
- by move/ne.
by move=> /(debug_N_cat (st _ _) (st _ _)) [/to_N_byte_inj -> /delim_tail [-> ->]].
Qed.

Definition kind (v : value) : bool := if v is VNum _ then true else false.
Lemma delim_value v w s t : kind v = kind w -> stops s -> stops t ->
  debug_value v ++ s = debug_value w ++ t -> v = w /\ s = t.
Proof.
case: v w => [n|l] [m|l'] // _ Hs Ht /=; first by move=> /(debug_N_cat Hs Ht) [-> ->].
by move=> /delim_bytes [-> ->].
Qed.

Definition layout (fields : seq (seq byte * value)) : seq (seq byte * bool) :=
  [seq (f.1, kind f.2) | f <- fields].
Lemma debug_fieldsE sep n v r :
  debug_fields sep ((n, v) :: r) = sep ++ n ++ lit ": " ++ debug_value v ++ debug_fields (lit ", ") r.
Proof. by []. Qed.
Lemma fields_inj fs fs' sep s t : layout fs = layout fs' ->
  debug_fields sep fs ++ s = debug_fields sep fs' ++ t -> fs = fs' /\ s = t.
Proof.
have st r s' : stops (debug_fields (lit ", ") r ++ s') by case: r => [|[]].
elim: fs fs' sep => [|[n v] fs IH] [|[n' v'] fs'] sep //.
  by move=> _ /cat_cancel ->.
move=> -[En Ev El]; rewrite En !debug_fieldsE -!catA => /cat_cancel /cat_cancel /cat_cancel.
by move=> /(delim_value Ev (st _ _) (st _ _)) [-> /(IH _ _ El) [-> ->]].
Qed.
Lemma struct_inj name fs fs' s t : layout fs = layout fs' ->
  debug_struct name fs ++ s = debug_struct name fs' ++ t -> fs = fs' /\ s = t.
Proof. by move=> El; rewrite /debug_struct -!catA => /cat_cancel /(fields_inj El). Qed.
Lemma struct_inj' name fs fs' s t : debug_struct name fs ++ s = debug_struct name fs' ++ t ->
  layout fs = layout fs' -> fs = fs' /\ s = t.
Proof. by move=> E El; exact: struct_inj El E. Qed.
Lemma delim_tuple (T : Type) (f : T -> seq byte) name : delim f -> delim (fun x => debug_tuple name (f x)).
Proof. by move=> D x y s t; rewrite /debug_tuple -!catA => /cat_cancel /cat_cancel /D [-> /cat_cancel ->]. Qed.

(** Names of which neither begins with the other *)
Fixpoint clash (p q : seq byte) : bool :=
  if p is x :: p' then if q is y :: q' then (x != y) || clash p' q' else false else false.
Lemma clash_neq p q s t : clash p q -> p ++ s = q ++ t -> False.
Proof. by elim: p q => [|x p IH] [|y q] //= /orP[/eqP ne [//]|H [_]]; exact: IH. Qed.

Lemma VNat_inj a b : VNat a = VNat b -> a = b.
Proof. by case=> /Nnat.Nat2N.inj. Qed.

(** Variants with different names, and the same variant with fields *)
Ltac other := let E := fresh in rewrite ?/debug_struct ?/debug_tuple -?catA; intro E; exfalso;
  refine (clash_neq _ E); vm_compute; reflexivity.
Ltac same := let E := fresh in let F := fresh in let S := fresh in
  intro E; destruct (struct_inj' E erefl) as [F S]; injection F; intros;
  repeat match goal with H : N.of_nat _ = N.of_nat _ |- _ => apply Nnat.Nat2N.inj in H end; subst; split; reflexivity.
Ltac inner := let E := fresh in let H := fresh in
  intro E; match type of E with debug_tuple _ (?f _) ++ _ = _ =>
    let D := fresh in assert (D : delim f) by auto; destruct (delim_tuple D E) as [H ->]; rewrite H; split; reflexivity end.
Ltac unit_ := let E := fresh in intro E; split; [reflexivity | exact (cat_cancel E)].

Lemma delim_rs : delim debug_rs_error.
Proof. case=> ? ? [] ? ? s t; rewrite /debug_rs_error; first [other | same]. Qed.
Lemma delim_fk20 : delim debug_fk20_verifier_error.
Proof. by case=> [] [] s t /cat_cancel ->. Qed.
#[local] Hint Resolve delim_rs delim_fk20 : core.
Lemma delim_recovery : delim debug_recovery_error.
Proof.
case=> [a b|a b|a b|a b||a] [c d|c d|c d|c d||c] s t; rewrite /debug_recovery_error;
  first [other | same | unit_ | inner].
Qed.
#[local] Hint Resolve delim_recovery : core.
Lemma delim_prover : delim debug_prover_error.
Proof. case=> a [c] s t; rewrite /debug_prover_error; inner. Qed.
Lemma delim_verifier : delim debug_verifier_error.
Proof.
case=> [a b|a b||a b a' b'|a|a b] [c d|c d||c d c' d'|c|c d] s t; rewrite /debug_verifier_error;
  first [other | same | unit_ | inner].
Qed.
Lemma delim_serialization : delim debug_serialization_error.
Proof.
case=> [a|a|a b|a b|a b] [c|c|c d|c d|c d] s t; rewrite /debug_serialization_error; first [other | same].
Qed.
#[local] Hint Resolve delim_prover delim_verifier delim_serialization : core.
Lemma delim_error : delim debug_error.
Proof. case=> a [] c s t; rewrite /debug_error; first [other | inner]. Qed.

(** ** Printable characters *)
Definition printable (s : seq byte) : bool := all is_printable s.

Lemma digit_printable b : is_digit b -> is_printable b.
Proof.
move=> /andP[/N.leb_spec0 H1 /N.leb_spec0 H2]; apply/andP; split; apply/N.leb_spec0.
  exact: N.le_trans H1.
exact: N.le_trans H2 _.
Qed.
Lemma printable_N n : printable (debug_N n).
Proof. by apply: sub_all (digits_N n) => b; exact: digit_printable. Qed.
Lemma printable_bytes l : printable (debug_bytes l).
Proof.
rewrite /printable /debug_bytes !all_cat /=; rewrite andbT; case: l => [|b r] //.
rewrite all_cat [all _ (debug_N _)]printable_N /=; elim: r => [|c r IH] //=.
by rewrite all_cat [all _ (debug_N _)]printable_N.
Qed.
Lemma printable_value v : printable (debug_value v).
Proof. by case: v => [n|l]; [exact: printable_N|exact: printable_bytes]. Qed.
Lemma printable_fields sep fs : printable sep -> all (fun f => printable f.1) fs -> printable (debug_fields sep fs).
Proof.
elim: fs sep => [|[n v] fs IH] sep Hs // /andP[Hn Hf]; rewrite debug_fieldsE /printable !all_cat.
by apply/and5P; split; [exact: Hs | exact: Hn | exact: isT | exact: printable_value | exact: IH].
Qed.
Lemma printable_struct name fs : printable name -> all (fun f => printable f.1) fs -> printable (debug_struct name fs).
Proof. by move=> Hn Hf; rewrite /printable /debug_struct all_cat [all _ name]Hn; exact: printable_fields. Qed.
Lemma printable_tuple name inner : printable name -> printable inner -> printable (debug_tuple name inner).
Proof. by move=> Hn Hi; rewrite /printable /debug_tuple !all_cat [all _ name]Hn [all _ inner]Hi. Qed.
Lemma printable_error e : printable (debug_error e).
Proof.
have rs r : printable (debug_rs_error r) by case: r => ? ?; exact: printable_struct.
have rec r : printable (debug_recovery_error r).
  by case: r => * //; first [exact: printable_struct | exact: printable_tuple].
have fk r : printable (debug_fk20_verifier_error r) by case: r.
by case: e => -[] *; apply: printable_tuple => //;
   first [exact: printable_struct | exact: printable_tuple | exact: rec].
Qed.

(** ** Decimal numbers *)
Lemma value_acc u p :
  foldl (fun a b => 10 * a + (Byte.to_N b - 48))%num (N.pos p) (list_byte_of_string (NilEmpty.string_of_uint u)) =
  N.pos (Pos.of_uint_acc u p).
Proof.
elim: u p => [|u IH|u IH|u IH|u IH|u IH|u IH|u IH|u IH|u IH|u IH] p //.
- exact: (IH (10 * p)%positive).
- by rewrite -[RHS]/(N.pos (Pos.of_uint_acc u (1 + 10 * p)%positive)) Pos.add_comm -IH.
- by rewrite -[RHS]/(N.pos (Pos.of_uint_acc u (2 + 10 * p)%positive)) Pos.add_comm -IH.
- by rewrite -[RHS]/(N.pos (Pos.of_uint_acc u (3 + 10 * p)%positive)) Pos.add_comm -IH.
- by rewrite -[RHS]/(N.pos (Pos.of_uint_acc u (4 + 10 * p)%positive)) Pos.add_comm -IH.
- by rewrite -[RHS]/(N.pos (Pos.of_uint_acc u (5 + 10 * p)%positive)) Pos.add_comm -IH.
- by rewrite -[RHS]/(N.pos (Pos.of_uint_acc u (6 + 10 * p)%positive)) Pos.add_comm -IH.
- by rewrite -[RHS]/(N.pos (Pos.of_uint_acc u (7 + 10 * p)%positive)) Pos.add_comm -IH.
- by rewrite -[RHS]/(N.pos (Pos.of_uint_acc u (8 + 10 * p)%positive)) Pos.add_comm -IH.
- by rewrite -[RHS]/(N.pos (Pos.of_uint_acc u (9 + 10 * p)%positive)) Pos.add_comm -IH.
Qed.
Lemma value_uint u : decimal_value (list_byte_of_string (NilEmpty.string_of_uint u)) = N.of_uint u.
Proof. by elim: u => [|u IH|u _|u _|u _|u _|u _|u _|u _|u _|u _] //; exact: value_acc. Qed.

Lemma debug_N_decimal n : decimal n (debug_N n).
Proof.
split.
- exact: digits_N.
- exact: debug_N_nonnil.
- by rewrite /debug_N value_uint DecimalN.Unsigned.of_to.
rewrite /debug_N; have := DecimalN.Unsigned.to_of (N.to_uint n); rewrite DecimalN.Unsigned.of_to => ->.
rewrite /unorm; case E: (nzhead _) => [|u|u|u|u|u|u|u|u|u|u] r //.
- by case=> <-.
- by case: (nzhead_nonzero _ _ E).
Qed.
