(** Invariants of the loading of the native library. *)

From mathcomp Require Import ssreflect ssrfun ssrbool eqtype ssrnat seq.
From Verif Require Import JavaLoad SpecLoad.

Set Implicit Arguments.
Unset Strict Implicit.
Unset Printing Implicit Defensive.

Definition evs (o : option event) : seq event := if o is Some e then [:: e] else [::].

Lemma run_invariant (P : seq event -> state -> Prop) :
  (forall l s t o s', P l s -> step t s o s' -> P (l ++ evs o) s') ->
  forall s l ts s', run s l ts s' -> forall l0, P l0 s -> P (l0 ++ l) s'.
Proof.
move=> H s l ts s'; elim=> {s l ts s'} [s l0|s t o s' l ts s'' St _ IH l0 P0]; first by rewrite cats0.
have := IH _ (H _ _ _ _ _ P0 St); rewrite -catA; by case: o {St}.
Qed.

Lemma run_cat s l ts s' l' ts' s'' : run s l ts s' -> run s' l' ts' s'' -> run s (l ++ l') (ts ++ ts') s''.
Proof.
elim=> {s l ts s'} [s|s t o s' l ts s3 St _ IH] //.
by move/IH => R; have := RunStep St R; case: o St.
Qed.

Definition inside (p : pc) : bool :=
  match p with Second | Before | Loading | SetFlag | Leave | Raise => true | _ => false end.
Definition is_loading (p : pc) : bool := if p is Loading then true else false.

Fixpoint busy_after (busy : option nat) (l : seq event) : option nat :=
  match l with
  | [::] => busy
  | LoadStart t :: r => busy_after (Some t) r
  | LoadEnd _ _ :: r => busy_after None r
  | _ :: r => busy_after busy r
  end.

Lemma busy_cat b l l' : busy_after b (l ++ l') = busy_after (busy_after b l) l'.
Proof. by elim: l b => [|[]] //=. Qed.
Lemma one_cat b l l' : one_at_a_time b (l ++ l') = one_at_a_time b l && one_at_a_time (busy_after b l) l'.
Proof. by elim: l b => [|[t|t ok|t|t] l IH] b //=; rewrite IH // andbA. Qed.

Record Inv (l : seq event) (s : state) : Prop := {
  inv_owner : forall t, inside (pcs s t) <-> owner s = Some t;
  inv_loaded : loaded s -> has is_success l;
  inv_before : forall t, pcs s t = Before -> ~~ has is_success l /\ busy_after None l = None;
  inv_loading : forall t, pcs s t = Loading -> ~~ has is_success l /\ busy_after None l = Some t;
  inv_flag : forall t, pcs s t = SetFlag -> has is_success l;
  inv_success : has is_success l -> loaded s \/ exists t, pcs s t = SetFlag;
  inv_after : forall t, pcs s t = Leave \/ pcs s t = Return -> loaded s;
  inv_busy : forall t, busy_after None l = Some t -> pcs s t = Loading;
  inv_one : one_at_a_time None l;
  inv_raise : forall t, pcs s t = Raise -> exists l3 l4,
    l = l3 ++ LoadEnd t false :: l4 /\ all (fun e => of_thread e != t) l4
}.

Lemma inv_init : Inv [::] init.
Proof. by split=> // t; case. Qed.

Lemma inv_unique l s t u : Inv l s -> inside (pcs s t) -> inside (pcs s u) -> t = u.
Proof. by move=> I /(inv_owner I) E /(inv_owner I); rewrite E => -[]. Qed.

Lemma pcs_goto s t p u : pcs (goto s t p) u = if u == t then p else pcs s u.
Proof. by []. Qed.

(** The events of other threads do not matter for a thread that is leaving with an exception. *)
Lemma raise_more l t e : of_thread e != t ->
  (exists l3 l4, l = l3 ++ LoadEnd t false :: l4 /\ all (fun e => of_thread e != t) l4) ->
  exists l3 l4, l ++ [:: e] = l3 ++ LoadEnd t false :: l4 /\ all (fun e => of_thread e != t) l4.
Proof.
move=> ne [l3 [l4 [-> A]]]; exists l3, (l4 ++ [:: e]); split; first by rewrite -catA.
by rewrite all_cat A /= ne.
Qed.

(** One step keeps the invariant. *)
Section Step.
Variables (l : seq event) (s : state) (t : nat).
Hypothesis I : Inv l s.

(** A step from and to places outside of the monitor that changes nothing else *)
Lemma inv_outside p : ~~ inside (pcs s t) -> ~~ inside p -> (p = Return -> loaded s) -> Inv l (goto s t p).
Proof.
move=> Hi Hp Hr.
have other q u : inside q -> pcs (goto s t p) u = q -> pcs s u = q.
  by move=> Hq; rewrite pcs_goto; case: eqP => // _ E; rewrite E Hq in Hp.
have same u : inside (pcs s u) -> pcs (goto s t p) u = pcs s u.
  by rewrite pcs_goto; case: eqP => // -> H; rewrite H in Hi.
split.
- move=> u; rewrite pcs_goto; case: eqP => [->|_]; last exact: (inv_owner I).
  split=> [H|]; first by rewrite H in Hp.
  by move/(inv_owner I) => H; rewrite H in Hi.
- exact: (inv_loaded I).
- by move=> u /(other Before _ isT); exact: (inv_before I).
- by move=> u /(other Loading _ isT); exact: (inv_loading I).
- by move=> u /(other SetFlag _ isT); exact: (inv_flag I).
- by case/(inv_success I) => [|[u E]]; [left|right; exists u; rewrite same E].
- move=> u [/(other Leave _ isT) E|]; first by apply: (inv_after I (t := u)); left.
  rewrite pcs_goto; case: eqP => // _ E; by apply: (inv_after I (t := u)); right.
- by move=> u /(inv_busy I) E; rewrite same E.
- exact: (inv_one I).
by move=> u /(other Raise _ isT); exact: (inv_raise I).
Qed.

Lemma not_in : inside (pcs s t) -> forall u, u <> t -> ~~ inside (pcs s u).
Proof. by move=> Ht u ne; apply/negP => /(inv_unique I Ht) E; apply: ne. Qed.

(** A step inside of the monitor, into it, or out of it *)
Lemma inv_inside l' (ld : bool) p : (forall u, u <> t -> ~~ inside (pcs s u)) ->
  (loaded s -> ld) -> (ld -> has is_success l') ->
  (p = Before -> ~~ has is_success l' /\ busy_after None l' = None) ->
  (p = Loading -> ~~ has is_success l' /\ busy_after None l' = Some t) ->
  (p = SetFlag -> has is_success l') ->
  (has is_success l' -> ld \/ p = SetFlag) ->
  (p = Leave \/ p = Return -> ld) ->
  (forall u, busy_after None l' = Some u -> u = t /\ p = Loading) ->
  one_at_a_time None l' ->
  (p = Raise -> exists l3 l4, l' = l3 ++ LoadEnd t false :: l4 /\ all (fun e => of_thread e != t) l4) ->
  Inv l' (goto (MkState ld (if inside p then Some t else None) (pcs s)) t p).
Proof.
move=> out H1 H2 H3 H4 H5 H6 H7 H8 H9 H10.
have other u q : u <> t -> pcs s u = q -> inside q -> False.
  by move=> ne E; have := out u ne; rewrite E => /negP.
split=> /=.
- move=> u; case: eqP => [->|ne]; first by case: (inside p).
  by move/negbTE: (out u ne) => ->; split=> //; case: ifP => // _ [E]; case: ne.
- exact: H2.
- by move=> u; case: eqP => [Eu|ne E]; [rewrite ?Eu; first [exact: H3|exact: H4|exact: H5|exact: H10]|case: (other _ _ ne E)].
- by move=> u; case: eqP => [Eu|ne E]; [rewrite ?Eu; first [exact: H3|exact: H4|exact: H5|exact: H10]|case: (other _ _ ne E)].
- by move=> u; case: eqP => [Eu|ne E]; [rewrite ?Eu; first [exact: H3|exact: H4|exact: H5|exact: H10]|case: (other _ _ ne E)].
- by case/H6 => [|E]; [left|right; exists t; rewrite eqxx].
- move=> u; case: eqP => [_|ne E]; first exact: H7.
  by apply: H1; exact: (inv_after I (t := u)).
- by move=> u /H8[-> ->]; rewrite eqxx.
- exact: H9.
- by move=> u; case: eqP => [Eu|ne E]; [rewrite ?Eu; first [exact: H3|exact: H4|exact: H5|exact: H10]|case: (other _ _ ne E)].
Qed.

(** The call of the native method is no event of loading. *)
Lemma inv_native : pcs s t <> Raise -> Inv (l ++ [:: NativeNew t]) s.
Proof.
move=> ne; have hasE : has is_success (l ++ [:: NativeNew t]) = has is_success l by rewrite has_cat /= orbF.
have busyE : busy_after None (l ++ [:: NativeNew t]) = busy_after None l by rewrite busy_cat.
split; rewrite ?hasE ?busyE; try solve [by case: I].
  by rewrite one_cat (inv_one I).
move=> u E; apply: raise_more (inv_raise I E); apply/eqP => /= Et; by rewrite Et in ne.
Qed.
End Step.

Definition is_set_flag (p : pc) : bool := if p is SetFlag then true else false.
Lemma inv_facts l s t : Inv l s -> inside (pcs s t) ->
  [/\ forall u, u <> t -> ~~ inside (pcs s u), owner s = Some t,
      has is_success l -> ~~ is_set_flag (pcs s t) -> loaded s &
      ~~ is_loading (pcs s t) -> busy_after None l = None].
Proof.
move=> I Ht; split; [exact: not_in I Ht|exact/(inv_owner I)| |].
  case/(inv_success I) => // -[u Eu]; have := inv_unique I Ht (u := u); rewrite Eu => /(_ isT) ->.
  by rewrite Eu.
case B: (busy_after None l) => [u|] //; have Eu := inv_busy I B.
by have := inv_unique I Ht (u := u); rewrite Eu => /(_ isT) ->; rewrite Eu.
Qed.
Lemma goto_inside s t p : owner s = Some t -> inside p ->
  goto s t p = goto (MkState (loaded s) (if inside p then Some t else None) (pcs s)) t p.
Proof. by move=> E ->; rewrite /goto E. Qed.

Lemma inv_step l s t o s' : Inv l s -> step t s o s' -> Inv (l ++ evs o) s'.
Proof.
move=> I St; case: St I => {s o s'} [s E|s E|s E Eo|s E|s E|s ok E|s E|s E|s E|s E] I; rewrite ?cats0.
- by apply: inv_outside; rewrite ?E.
- by apply: inv_outside; rewrite ?E //; case: (loaded s).
- have out u : u <> t -> ~~ inside (pcs s u) by move=> _; apply/negP => /(inv_owner I); rewrite Eo.
  apply: (inv_inside (p := Second) I) => //; try by case.
  + exact: (inv_loaded I).
  + case/(inv_success I) => [|[u Eu]]; [by left|].
    by have := (inv_owner I u).1; rewrite Eu Eo => /(_ isT).
  + move=> u /(inv_busy I) Eu; by have := (inv_owner I u).1; rewrite Eu Eo => /(_ isT).
  + exact: (inv_one I).
- have Ht : inside (pcs s t) by rewrite E.
  have [out Eo nf nb] := inv_facts I Ht.
  rewrite (goto_inside Eo); last by case: (loaded s).
  apply: (inv_inside I) => //; try by case: (loaded s) => // -[].
  + exact: (inv_loaded I).
  + case El: (loaded s) => // _; split; last by apply: nb; rewrite E.
    by apply/negP => /nf; rewrite El E => /(_ isT).
  + by move/nf; rewrite E => /(_ isT); left.
  + by move=> u; rewrite nb ?E.
  + exact: (inv_one I).
- have Ht : inside (pcs s t) by rewrite E.
  have [out Eo nf nb] := inv_facts I Ht; have [ns _] := inv_before I E.
  have hasE : has is_success (l ++ [:: LoadStart t]) = has is_success l by rewrite has_cat /= orbF.
  have busyE : busy_after None (l ++ [:: LoadStart t]) = Some t by rewrite busy_cat.
  rewrite (goto_inside Eo) //.
  apply: (inv_inside (p := Loading) I) => //; rewrite ?hasE ?busyE //; try by case.
  + exact: (inv_loaded I).
  + by move/nf; rewrite E => /(_ isT); left.
  + by move=> u [->].
  + by rewrite one_cat (inv_one I) nb ?E.
- have Ht : inside (pcs s t) by rewrite E.
  have [out Eo nf nb] := inv_facts I Ht; have [ns B] := inv_loading I E.
  have nl : ~~ loaded s by apply: contra ns; exact: (inv_loaded I).
  have hasE : has is_success (l ++ [:: LoadEnd t ok]) = ok by rewrite has_cat /= (negbTE ns); case: ok.
  have busyE : busy_after None (l ++ [:: LoadEnd t ok]) = None by rewrite busy_cat.
  rewrite (goto_inside Eo); last by case: ok hasE busyE.
  apply: (inv_inside (p := if ok then SetFlag else Raise) I) => //; rewrite ?hasE ?busyE //; try by case: ok {hasE busyE} => // -[].
  + by rewrite (negbTE nl).
  + by move=> ->; right.
  + by rewrite one_cat (inv_one I) B /= eqxx.
  + by case: ok {hasE busyE} => // _; exists l, [::].
- have Ht : inside (pcs s t) by rewrite E.
  have [out Eo nf nb] := inv_facts I Ht.
  have -> : goto (MkState true (owner s) (pcs s)) t Leave =
    goto (MkState true (if inside Leave then Some t else None) (pcs s)) t Leave by rewrite Eo.
  apply: (inv_inside (p := Leave) I) => //; try by case.
  + by move=> _; exact: (inv_flag I E).
  + by left.
  + by move=> u; rewrite nb ?E.
  + exact: (inv_one I).
- have Ht : inside (pcs s t) by rewrite E.
  have [out Eo nf nb] := inv_facts I Ht; have Hl : loaded s by apply: (inv_after I (t := t)); left.
  apply: (inv_inside (p := Return) I) => //; try by case.
  + exact: (inv_loaded I).
  + by left.
  + by move=> u; rewrite nb ?E.
  + exact: (inv_one I).
- have Ht : inside (pcs s t) by rewrite E.
  have [out Eo nf nb] := inv_facts I Ht.
  have hasE : has is_success (l ++ [:: Threw t]) = has is_success l by rewrite has_cat /= orbF.
  have busyE : busy_after None (l ++ [:: Threw t]) = busy_after None l by rewrite busy_cat.
  apply: (inv_inside (p := Idle) I) => //; rewrite ?hasE ?busyE //; try by case.
  + exact: (inv_loaded I).
  + by move/nf; rewrite E => /(_ isT); left.
  + by move=> u; rewrite nb ?E.
  + by rewrite one_cat (inv_one I).
- have J : Inv (l ++ [:: NativeNew t]) s by apply: inv_native; rewrite ?E.
  by apply: inv_outside; rewrite ?E.
Qed.

Lemma run_inv l ts s : run init l ts s -> Inv l s.
Proof. by move=> R; exact: (run_invariant inv_step R inv_init). Qed.
