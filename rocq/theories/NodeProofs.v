(** Lemmas for PropNode.v. *)

From Coq Require Import ZArith NArith Init.Byte Strings.Byte Strings.String.
From mathcomp Require Import ssreflect ssrfun ssrbool eqtype ssrnat seq.
From Verif Require Import Base Bytes Jni JniProofs SpecJni Node SpecNode.
From mathcomp Require Import zify_ssreflect.

Set Implicit Arguments.
Unset Strict Implicit.
Unset Printing Implicit Defensive.

(** ** Lists *)
Lemma oget_replace (T : Type) (l : seq T) i j x :
  oget (replace_at l i x) j = if (i == j) && (i < size l) then Some x else oget l j.
Proof. by elim: l i j => [|y l IH] [|i] [|j] //=; rewrite ?andbF // IH eqSS ltnS. Qed.
Lemma size_replace (T : Type) (l : seq T) i x : size (replace_at l i x) = size l.
Proof. by elim: l i => [|y l IH] [|i] //=; rewrite IH. Qed.
Lemma oget_rcons (T : Type) (l : seq T) x i : oget (rcons l x) i = if i == size l then Some x else oget l i.
Proof. by elim: l i => [|y l IH] [|i] //=; rewrite IH eqSS. Qed.
Lemma oget_lt (T : Type) (l : seq T) i : i < size l -> exists x, oget l i = Some x.
Proof. by elim: l i => [|y l IH] [|i] //= H; [exists y|apply: IH]. Qed.

(** ** Memory *)
Lemma vread_cat m m' v b : vread m v = Some b -> vread (m ++ m') v = Some b.
Proof.
rewrite /vread; case E: (oget m (v_buffer v)) => [x|] //.
by rewrite (oget_cat _ E).
Qed.
Lemma vread_new m b : vread (rcons m b) (MkView (size m) 0 (size b)) = Some b.
Proof. by rewrite /vread /= oget_rcons eqxx add0n leqnn drop0 take_size. Qed.
Lemma vread_lt m v b : vread m v = Some b -> v_buffer v < size m.
Proof. by rewrite /vread; case E: (oget _ _) => [x|] // _; exact: oget_size E. Qed.

Lemma drop_take_cat (T : Type) (old b : seq T) i n : i + size b <= size old ->
  forall o, (o + n <= i) || (i + size b <= o) -> o + n <= size old ->
  take n (drop o (take i old ++ b ++ drop (i + size b) old)) = take n (drop o old).
Proof.
move=> H o; case/orP => H1 H2.
  rewrite drop_cat size_takel; last by lia.
  case: ltnP => H3; last by (have -> : n = 0 by lia); rewrite !take0.
  rewrite take_cat size_drop size_takel; last by lia.
  case: ltnP => H4.
    by rewrite take_drop take_take; [rewrite -take_drop|lia].
  have -> : n - (i - o) = 0 by lia.
  rewrite take0 cats0; have En : n = i - o by lia.
  by rewrite En take_drop subnK //; lia.
rewrite drop_cat size_takel; last by lia.
rewrite ltnNge (_ : i <= o) /=; last by lia.
rewrite drop_cat (_ : o - i < size b = false); last by lia.
rewrite drop_drop; congr (take n (drop _ old)); lia.
Qed.
Lemma vread_write m i o b m' v : vwrite m i o b = Some m' -> ~~ touches i o (size b) v -> vread m' v = vread m v.
Proof.
rewrite /vwrite; case E: (oget m i) => [old|] //; case: leqP => // H [<-] T.
rewrite /vread oget_replace; case: eqP => [Ei|_] //=; rewrite -Ei E (oget_size E) /=.
have Sz : size (take o old ++ b ++ drop (o + size b) old) = size old.
  by rewrite size_cat size_cat size_takel ?size_drop; lia.
rewrite Sz; case: leqP => // Hv; congr Some.
case: (posnP (v_length v)) => [->|Hn]; first by rewrite !take0.
by apply: drop_take_cat => //; move: T; rewrite /touches Ei eqxx /=; lia.
Qed.
Lemma vwrite_sizes m i o b m' : vwrite m i o b = Some m' -> map size m' = map size m.
Proof.
rewrite /vwrite; case E: (oget m i) => [old|] //; case: leqP => // H [<-].
elim: m i E => [|y m IH] [|i] //= E; last by rewrite IH.
case: E => ->; congr cons; rewrite size_cat size_cat size_takel ?size_drop; lia.
Qed.
Lemma oget_map (T U : Type) (f : T -> U) (l : seq T) i : oget (map f l) i = ssrfun.Option.map f (oget l i).
Proof. by elim: l i => [|y l IH] [|i] //=. Qed.
(** Which arrays can be read depends on the sizes of the buffers. *)
Lemma vread_sizes m m' v b : (exists fr, map size m' = map size m ++ fr) -> vread m v = Some b -> exists b', vread m' v = Some b'.
Proof.
move=> [fr E]; rewrite /vread; case Em: (oget m _) => [x|] //; case: leqP => // H _.
have X : oget (map size m) (v_buffer v) = Some (size x) by rewrite oget_map Em.
have := oget_cat fr X; rewrite -E oget_map.
by case: (oget m' _) => //= y [->]; rewrite H; eexists.
Qed.

(** ** New arrays *)
Lemma new_arraysE m l : exists vs m', [/\ new_arrays m l = (vs, m'), m' = m ++ l, holds m' vs l &
  map v_buffer vs = iota (size m) (size l)].
Proof.
elim: l m => [|b l IH] m /=; first by exists [::], m; rewrite cats0.
have [vs [m' [-> -> H1 H2]]] := IH (rcons m b).
exists (MkView (size m) 0 (size b) :: vs), (rcons m b ++ l); split=> //.
- by rewrite cat_rcons.
- by rewrite /holds /= (vread_cat _ (vread_new _ _)) H1.
by rewrite /= H2 size_rcons.
Qed.
Lemma all_iota_ge n (vs : seq view) k : map v_buffer vs = iota n k -> all (fun v => n <= v_buffer v) vs.
Proof. by move=> E; rewrite -(all_map v_buffer (leq n)) E; apply/allP => i; rewrite mem_iota => /andP[]. Qed.

Lemma deliverE m r : exists a m', deliver m r = (a, m') /\ new_answer m m' a r.
Proof.
case: r => [b|cells proofs|cells|b|msg] /=.
- exists (AArray (MkView (size m) 0 (size b))), (rcons m b); split=> //; split=> //=.
  + by exists [:: b]; rewrite cats1.
  + by rewrite /holds /= vread_new.
  by rewrite leqnn.
- have [vc [m1 [-> E1 H1 U1]]] := new_arraysE m cells.
  have [vp [m2 [-> E2 H2 U2]]] := new_arraysE m1 proofs.
  exists (ACellsAndProofs vc vp), m2; split=> //.
  have S1 : size vc = size cells by rewrite -(size_map v_buffer) U1 size_iota.
  have S2 : size vp = size proofs by rewrite -(size_map v_buffer) U2 size_iota.
  split=> //; have U : map v_buffer (vc ++ vp) = iota (size m) (size cells + size proofs).
    by rewrite map_cat U1 U2 E1 size_cat iotaD.
  split; [by exists (cells ++ proofs); rewrite E2 E1 catA| |by rewrite U iota_uniq|exact: all_iota_ge U].
  rewrite /holds !map_cat H2; congr (_ ++ _); rewrite E2; move: H1; rewrite /holds.
  elim: vc cells {S1 U1 U E1} => [|v vc IH] [|b cells] //= [Hv /IH ->].
  by rewrite (vread_cat _ Hv).
- have [vc [m1 [-> E1 H1 U1]]] := new_arraysE m cells.
  exists (ACells vc), m1; split=> //; split=> //; [by exists cells|by rewrite U1 iota_uniq|exact: all_iota_ge U1].
- by exists (ABool b), m.
by exists (AThrow msg), m.
Qed.
Lemma deliver_sizes m r : exists fr, map size (deliver m r).2 = map size m ++ fr.
Proof.
have [a [m' [-> H]]] := deliverE m r => /=.
suff [fr ->] : exists fr, m' = m ++ fr by exists (map size fr); rewrite map_cat.
have E : m = m ++ [::] by rewrite cats0.
by case: a r H => [v|vc vp|vc|b|msg] [b'|cells proofs|cells|b'|msg'] //=;
  [case|case=> _ _ []|case|case=> _ ->; exists [::]|case=> _ ->; exists [::]].
Qed.

(** ** Readers *)
Lemma run_reader_eq r m m' f : reads_only r f ->
  (forall i v, oget (arrays_of r) i = Some v -> vread m v = vread m' v) -> run_reader m f = run_reader m' f.
Proof.
move=> R H; elim: f R => [o|v k IH] //= [[i Hv] R]; rewrite (H _ _ Hv).
by case: (vread m' v) => // b; apply: IH.
Qed.

Lemma holds1 m v b : holds m [:: v] [:: b] <-> vread m v = Some b.
Proof. by rewrite /holds; split=> [[]|/= ->]. Qed.
Lemma run_read_list m vs bs k : holds m vs bs -> run_reader m (read_list vs k) = run_reader m (k bs).
Proof. by elim: vs bs k => [|v vs IH] [|b bs] k //= []; rewrite /holds => -> /IH ->. Qed.

(** Each call whose arrays can be read has values. *)
Lemma holds_ex m vs : all (fun v => vread m v != None) vs -> exists bs, holds m vs bs.
Proof.
elim: vs => [|v vs IH] /=; first by exists [::].
by case E: (vread m v) => [b|] // /andP[_ /IH[bs H]]; exists (b :: bs); rewrite /holds /= E H.
Qed.
Lemma call_values_ex m r : all (fun v => vread m v != None) (arrays_of r) -> exists vals, call_values m r vals.
Proof.
case: r => [v|v|v|ids vs|vc ids vd vp] /=.
- by move=> H; have [bs] := @holds_ex m [:: v] H; case: bs => [|b [|]] // {}H; exists (Commit b).
- by move=> H; have [bs] := @holds_ex m [:: v] H; case: bs => [|b [|]] // {}H; exists (Compute b).
- by move=> H; have [bs] := @holds_ex m [:: v] H; case: bs => [|b [|]] // {}H; exists (ComputeCells b).
- by move=> H; have [bs Hb] := holds_ex H; exists (Recover ids bs).
rewrite !all_cat => /and3P[/holds_ex[c H1] /holds_ex[d H2] /holds_ex[q H3]].
by exists (Verify c ids d q).
Qed.
Lemma holds_readable m vs bs : holds m vs bs -> all (fun v => vread m v != None) vs.
Proof. by elim: vs bs => [|v vs IH] [|b bs] //= []; rewrite /holds => -> /IH ->. Qed.
Lemma call_values_readable m r vals : call_values m r vals -> all (fun v => vread m v != None) (arrays_of r).
Proof.
case: r vals => [v|v|v|ids vs|vc ids vd vp] [b|b|b|ids' bs|bc ids' bd bp] //=; try by move=> H; exact: (holds_readable H).
- by case=> _ /holds_readable.
by case=> _ /holds_readable H1 /holds_readable H2 /holds_readable H3; rewrite !all_cat H1 H2 H3.
Qed.
Lemma readable_sizes m m' vs : (exists fr, map size m' = map size m ++ fr) ->
  all (fun v => vread m v != None) vs -> all (fun v => vread m' v != None) vs.
Proof.
move=> E; elim: vs => [|v vs IH] //= /andP[Hv /IH ->]; rewrite andbT.
by case Em: (vread m v) Hv => [b|] // _; have [b' ->] := vread_sizes E Em.
Qed.

(** ** Executions *)
Section Run.
Variable prog : request view -> reader.

Lemma exec_sizes s e s' : exec prog s e = Some s' -> exists fr, map size (js_mem s') = map size (js_mem s) ++ fr.
Proof.
case: s => m ps; case: e => [b|i o b|r|p|p|p] /=.
- by move=> [<-] /=; exists [:: size b]; rewrite map_rcons cats1.
- by case E: (vwrite _ _ _ _) => [m'|] //= [<-] /=; exists [::]; rewrite cats0; exact: vwrite_sizes E.
- by case: ifP => // _ [<-]; exists [::]; rewrite cats0.
- by case: (oget _ _) => [[[//|v k]|//|//]|] //; case: (vread _ _) => // b [<-]; exists [::]; rewrite cats0.
- by case: (oget _ _) => [[[[r|]|//]|//|//]|] // [<-]; exists [::]; rewrite cats0.
case: (oget _ _) => [[//|r|//]|] //; have := deliver_sizes m r.
by case: (deliver m r) => a m' /= H [<-].
Qed.
Lemma run_sizes s es s' : run prog s es = Some s' -> exists fr, map size (js_mem s') = map size (js_mem s) ++ fr.
Proof.
elim: es s => [|e es IH] s /=; first by move=> [<-]; exists [::]; rewrite cats0.
case E: (exec prog s e) => [s1|] // /IH[fr ->]; have [fr' ->] := exec_sizes E.
by exists (fr' ++ fr); rewrite catA.
Qed.
Lemma run_cons s e s1 es : exec prog s e = Some s1 -> run prog s (e :: es) = run prog s1 es.
Proof. by rewrite [run _ s _]/= => ->. Qed.
Lemma run_cat s es es' : run prog s (es ++ es') = if run prog s es is Some s' then run prog s' es' else None.
Proof. by elim: es s => [|e es IH] s //=; case: (exec prog s e) => // s1; exact: IH. Qed.

(** Arrays that an event leaves alone *)
Lemma exec_alone s e s' r : exec prog s e = Some s' -> leaves_alone r e ->
  all (fun v => vread (js_mem s) v != None) (arrays_of r) ->
  forall i v, oget (arrays_of r) i = Some v -> vread (js_mem s') v = vread (js_mem s) v.
Proof.
case: s => m ps E L A i v Hv /=.
have [b Eb] : exists b, vread m v = Some b.
  elim: (arrays_of r) i A Hv => [|x l IH] [|i] //= /andP[Hx A]; last exact: IH.
  by move=> [<-]; case: (vread m x) Hx => // b _; exists b.
case: e E L => [x|j o x|r'|p|p|p] /=.
- by move=> [<-] _ /=; rewrite -cats1 Eb; exact: vread_cat.
- case W: (vwrite _ _ _ _) => [m'|] //= [<-] L /=; apply: (vread_write W).
  elim: (arrays_of r) i L Hv {A} => [|y l IH] [|i] //=; rewrite negb_or => /andP[H1 H2]; last exact: IH.
  by move=> [<-].
- by case: ifP => // _ [<-].
- by case: (oget _ _) => [[[//|w k]|//|//]|] //; case: (vread m w) => // y [<-].
- by case: (oget _ _) => [[[[y|]|//]|//|//]|] // [<-].
case: (oget _ _) => [[//|y|//]|] //; have [a [m' [-> H]]] := deliverE m y; move=> [<-] _ /=.
suff [fr ->] : exists fr, m' = m ++ fr by rewrite Eb; exact: vread_cat.
have X : m = m ++ [::] by rewrite cats0.
by case: a y H => [z|vc vp|vc|z|msg] [b'|cells proofs|cells|b'|msg'] //=;
  [case|case=> _ _ []|case|case=> _ ->; exists [::]|case=> _ ->; exists [::]].
Qed.

(** What an event can do to a promise *)
Lemma exec_promise s e s' p x : exec prog s e = Some s' -> oget (js_promises s) p = Some x ->
  [\/ oget (js_promises s') p = Some x,
      exists v k b, [/\ e = WRead p, x = Running (Read v k), vread (js_mem s) v = Some b, js_mem s' = js_mem s &
        oget (js_promises s') p = Some (Running (k b))],
      exists r, [/\ e = WFinish p, x = Running (Answer (Ret r)), js_mem s' = js_mem s &
        oget (js_promises s') p = Some (Finished r)] |
      exists r a, [/\ e = JSettle p, x = Finished r, deliver (js_mem s) r = (a, js_mem s') &
        oget (js_promises s') p = Some (Settled a)]].
Proof.
case: s => m ps; case: e => [b|i o b|r|q|q|q] /= E Hp.
- by move: E => [<-]; constructor 1.
- by move: E; case: (vwrite _ _ _ _) => [m'|] //= [<-]; constructor 1.
- move: E; case: ifP => // _ [<-] /=; constructor 1; rewrite oget_rcons.
  by have := oget_size Hp; case: eqP => // ->; rewrite ltnn.
- move: E; case Eq: (oget ps q) => [[[//|v k]|//|//]|] //; case Ev: (vread m v) => [b|] // [<-] /=.
  rewrite oget_replace (oget_size Eq) andbT; case: eqP => [Ep|_]; last by constructor 1.
  rewrite Ep Hp in Eq; case: Eq => ->; constructor 2; exists v, k, b; by split=> //; rewrite Ep.
- move: E; case Eq: (oget ps q) => [[[[r|]|//]|//|//]|] // [<-] /=.
  rewrite oget_replace (oget_size Eq) andbT; case: eqP => [Ep|_]; last by constructor 1.
  rewrite Ep Hp in Eq; case: Eq => ->; constructor 3; exists r; by split=> //; rewrite Ep.
move: E; case Eq: (oget ps q) => [[//|r|//]|] //; case D: (deliver m r) => [a m'] [<-] /=.
rewrite oget_replace (oget_size Eq) andbT; case: eqP => [Ep|_]; last by constructor 1.
rewrite Ep Hp in Eq; case: Eq => ->; constructor 4; exists r, a; by split=> //; rewrite Ep.
Qed.
End Run.
