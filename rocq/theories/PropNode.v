(** Properties of the methods of the Node binding: synchronous (C54) and asynchronous (C55). *)

From Coq Require Import ZArith NArith Init.Byte Strings.Byte Strings.String.
From mathcomp Require Import ssreflect ssrfun ssrbool eqtype ssrnat seq.
From mathcomp Require Import ssralg poly.
From Verif Require Import Base Bytes Spec SpecKZG SpecDAS SpecFr FrEnv Fr FixedBaseMSM FK20Verifier Eip7594 Eip7594Proofs.
From Verif Require Import SpecVerify ApiEip PropProver PropRecover PropVerify.
From Verif Require Import PolyCoeffProofs CApi Managed ManagedProofs PropManaged CMem SpecC CProofs CCallProofs PropC.
From Verif Require Import Jni JniProofs SpecJni Node SpecNode NodeProofs PropJni.
From mathcomp Require Import zify_ssreflect.

Set Implicit Arguments.
Unset Strict Implicit.
Unset Printing Implicit Defensive.

Section Calls.
Variables (ctx err : Type) (api : rust_api ctx err) (c : ctx).

Lemma read_once_implements : implements (respond api c) (read_once api c).
Proof.
have RL r k vs0 vs vs1 : arrays_of r = vs0 ++ vs ++ vs1 -> (forall l, reads_only r (k l)) -> reads_only r (read_list vs k).
  elim: vs vs0 k => [|v vs IH] vs0 k //= E Hk; split.
    exists (size vs0); rewrite E; have := oget_cat_at vs0 (v :: vs ++ vs1) 0; by rewrite addn0.
  by move=> b; apply: (IH (rcons vs0 v)) => //; rewrite E cat_rcons.
move=> r; split; case: r => [v|v|v|ids vs|vc ids vd vp].
- by split=> //; exists 0.
- by split=> //; exists 0.
- by split=> //; exists 0.
- by apply: (RL _ _ [::] _ [::]); rewrite ?cats0.
- apply: (RL _ _ [::] _ (vd ++ vp)) => // bc; apply: (RL _ _ vc _ vp) => // bd.
  by apply: (RL _ _ (vc ++ vd) _ [::]) => //; rewrite cats0 -catA.
- by move=> m [b|b|b|ids' bs|bc ids' bd bp] //= /holds1 ->.
- by move=> m [b|b|b|ids' bs|bc ids' bd bp] //= /holds1 ->.
- by move=> m [b|b|b|ids' bs|bc ids' bd bp] //= /holds1 ->.
- by move=> m [b|b|b|ids' bs|bc ids' bd bp] //= [-> H]; rewrite (run_read_list _ H).
move=> m [b|b|b|ids' bs|bc ids' bd bp] //= [-> H1 H2 H3].
by rewrite (run_read_list _ H1) (run_read_list _ H2) (run_read_list _ H3).
Qed.

Local Notation call m r := (node_sync (read_once api c) m r).

Lemma sync_gives prog m r rp : run_reader m (prog r) = Some (Ret rp) -> gives m (node_sync prog m r) rp.
Proof. by rewrite /node_sync => -> /=; have [a [m' [-> H]]] := deliverE m rp; exists a, m'. Qed.
Lemma call_gives m r vals rp : call_values m r vals -> respond api c vals = Ret rp -> gives m (call m r) rp.
Proof. by move=> H E; apply: sync_gives; rewrite ((read_once_implements r).2 _ _ H) E. Qed.
Lemma call_panics m r vals : call_values m r vals -> respond api c vals = Panic -> call m r = Some Panic.
Proof. by move=> H E; rewrite /node_sync ((read_once_implements r).2 _ _ H) E. Qed.

(** The call gives what the library gives, an error becomes an Error with its text. *)
Definition gives_library (A : Type) m (call : option (outcome (answer * jsmem))) (func : string) (f : A -> reply)
  (x : outcome (result A err)) : Prop :=
  match x with
  | Ret (Ok a) => gives m call (f a)
  | Ret (Err e) => gives m call (RError (failed func (ra_debug api e)))
  | Panic => call = Some Panic
  end.

Lemma reason_failed func e : node_reason api func (Cryptography e) = failed func (ra_debug api e).
Proof. by rewrite /node_reason -/(text (_ ++ _)) !text_app /failed -!catA. Qed.
Lemma answered_shown (A : Type) func (f : A -> reply) (x : outcome (result A err)) m r vals :
  call_values m r vals -> respond api c vals = answered api func f (shown x) -> gives_library m (call m r) func f x.
Proof.
move=> H; rewrite /gives_library; case: x => [[a|e]|] E.
- exact: call_gives H E.
- by apply: (call_gives H); rewrite E -reason_failed.
exact: call_panics H E.
Qed.
Lemma answered_size (A : Type) func (f : A -> reply) n got nm m r vals :
  call_values m r vals -> respond api c vals = answered api func f (Ret (Err (IncorrectSize n got nm))) ->
  gives m (call m r) (RError (must_have (name_text nm) (number (N.of_nat n)) (number (N.of_nat got)))).
Proof. by move=> H E; apply: (call_gives H); rewrite E. Qed.

(** ** C54: the synchronous methods *)
Theorem C54_commit m v b : vread m v = Some b ->
  if size b == 2 ^ 17 then
    gives_library m (call m (Commit v)) "blob_to_kzg_commitment" RBytes (ra_blob_to_kzg_commitment api c b)
  else gives m (call m (Commit v)) (RError (must_have "blob" (text "131072") (number (N.of_nat (size b))))).
Proof.
move=> /holds1 H; have V : call_values m (Commit v) (Commit b) by [].
case: eqP => Sb.
  by apply: (answered_shown V); have [_ E _ _] := C40_blob_passes api c Sb; rewrite /respond E.
rewrite -number_blob; apply: (answered_size (func := "blob_to_kzg_commitment") (f := RBytes) (nm := NmBlob) V).
by rewrite /respond /node_blob_to_kzg_commitment c_blob (array_bad _ _ Sb).
Qed.
Theorem C54_compute m v b : vread m v = Some b ->
  if size b == 2 ^ 17 then
    gives_library m (call m (Compute v)) "compute_cells_and_kzg_proofs" (fun cp => RCellsAndProofs cp.1 cp.2)
      (ra_compute api c b)
  else gives m (call m (Compute v)) (RError (must_have "blob" (text "131072") (number (N.of_nat (size b))))).
Proof.
move=> /holds1 H; have V : call_values m (Compute v) (Compute b) by [].
case: eqP => Sb.
  by apply: (answered_shown V); have [_ _ _ E] := C40_blob_passes api c Sb; rewrite /respond E.
rewrite -number_blob.
apply: (answered_size (func := "compute_cells_and_kzg_proofs") (f := fun cp => RCellsAndProofs cp.1 cp.2) (nm := NmBlob) V).
by rewrite /respond /node_compute_cells_and_kzg_proofs c_blob (array_bad _ _ Sb).
Qed.
Theorem C54_compute_cells m v b : vread m v = Some b ->
  if size b == 2 ^ 17 then
    gives_library m (call m (ComputeCells v)) "compute_cells_and_kzg_proofs" (fun cp => RCells cp.1)
      (ra_compute api c b)
  else gives m (call m (ComputeCells v)) (RError (must_have "blob" (text "131072") (number (N.of_nat (size b))))).
Proof.
move=> /holds1 H; have V : call_values m (ComputeCells v) (ComputeCells b) by [].
case: eqP => Sb.
  apply: (answered_shown V); have [_ _ _ E] := C40_blob_passes api c Sb; rewrite /respond /node_compute_cells E.
  by case: (ra_compute api c b) => [[[cells proofs]|e]|].
rewrite -number_blob.
apply: (answered_size (func := "compute_cells_and_kzg_proofs") (f := RCells) (nm := NmBlob) V).
by rewrite /respond /node_compute_cells /node_compute_cells_and_kzg_proofs c_blob (array_bad _ _ Sb).
Qed.

Lemma arrays_first n nm (l : seq (seq byte)) : ~~ all (fun x => size x == n) l ->
  arrays err n nm l = Ret (Err (IncorrectSize n (first_wrong n l) nm)).
Proof.
rewrite /arrays => H; congr (Ret _); elim: l H => [|x l IH] //=.
rewrite /first_wrong /= /slice_to_array_ref; case: eqP => [_ /= /IH ->|ne _] //=.
Qed.

Theorem C54_recover m vs ids cells : holds m vs cells ->
  let call := call m (Recover ids vs) in
  if ~~ all (fun z => (0 <=? z)%Z) ids then call = Some Panic
  else if ~~ all (fun x => size x == 2048) cells then
    gives m call (RError (must_have "cell" (text "2048") (number (N.of_nat (first_wrong 2048 cells)))))
  else gives_library m call "recover_cells_and_kzg_proofs" (fun cp => RCellsAndProofs cp.1 cp.2)
         (ra_recover api c [seq Z.to_N (z mod 2 ^ 64) | z <- ids] cells).
Proof.
move=> H; have V : call_values m (Recover ids vs) (Recover ids cells) by [].
cbv zeta; case: ifP => [Hn|/negbFE Hi].
  apply: (call_panics V); have [E _] := @C40_node_negative_panics ctx err api c ids cells [::] [::] Hn.
  by rewrite /respond E.
case: ifP => [Hs|/negbFE Hs].
  rewrite -[text "2048"]/(number (N.of_nat 2048)).
  apply: (answered_size (func := "recover_cells_and_kzg_proofs") (f := fun cp => RCellsAndProofs cp.1 cp.2) (nm := NmCell) V).
  by rewrite /respond /node_recover_cells_and_kzg_proofs (bigints_ok Hi) obind_Ret c_cell (arrays_first _ Hs).
apply: (answered_shown V); have [E _] := @C40_node_passes ctx err api c [::] ids cells [::] Hi isT Hs isT.
by rewrite /respond E.
Qed.

Theorem C54_verify m vc ids vd vp coms cells proofs : holds m vc coms -> holds m vd cells -> holds m vp proofs ->
  let call := call m (Verify vc ids vd vp) in
  let wrong name n l := gives m call (RError (must_have name (number (N.of_nat n)) (number (N.of_nat (first_wrong n l))))) in
  if ~~ all (fun z => (0 <=? z)%Z) ids then call = Some Panic
  else if ~~ all (fun x => size x == 48) coms then wrong "commitment"%string 48 coms
  else if ~~ all (fun x => size x == 2048) cells then wrong "cell"%string 2048 cells
  else if ~~ all (fun x => size x == 48) proofs then wrong "proof"%string 48 proofs
  else match ra_verify api c coms [seq Z.to_N (z mod 2 ^ 64) | z <- ids] cells proofs with
       | Ret (Ok _) => gives m call (RBool true)
       | Ret (Err e) =>
         gives m call (if ra_invalid_proof api e then RBool false
                       else RError (failed "verify_cell_kzg_proof_batch" (ra_debug api e)))
       | Panic => call = Some Panic
       end.
Proof.
move=> H1 H2 H3; have V : call_values m (Verify vc ids vd vp) (Verify coms ids cells proofs) by [].
cbv zeta; case: ifP => [Hn|/negbFE Hi].
  apply: (call_panics V); have [_ E] := @C40_node_negative_panics ctx err api c ids cells coms proofs Hn.
  by rewrite /respond E.
case: ifP => [Hs|/negbFE Sm].
  apply: (answered_size (func := "verify_cell_kzg_proof_batch") (f := RBool) (nm := NmCommitment) V).
  by rewrite /respond /node_verify_cell_kzg_proof_batch (bigints_ok Hi) obind_Ret (arrays_first _ Hs).
case: ifP => [Hs|/negbFE Sc].
  apply: (answered_size (func := "verify_cell_kzg_proof_batch") (f := RBool) (nm := NmCell) V).
  by rewrite /respond /node_verify_cell_kzg_proof_batch (bigints_ok Hi) obind_Ret (arrays_ok _ _ Sm) rbind_Ok c_cell (arrays_first _ Hs).
case: ifP => [Hs|/negbFE Sp].
  apply: (answered_size (func := "verify_cell_kzg_proof_batch") (f := RBool) (nm := NmProof) V).
  rewrite /respond /node_verify_cell_kzg_proof_batch (bigints_ok Hi) obind_Ret (arrays_ok _ _ Sm) rbind_Ok c_cell.
  by rewrite (arrays_ok _ _ Sc) rbind_Ok (arrays_first _ Hs).
have [_ E] := C40_node_passes api c Hi Sm Sc Sp.
case R: (ra_verify _ _ _ _ _ _) E => [[u|e]|] E.
- by apply: (call_gives V); rewrite /respond E.
- by apply: (call_gives V); rewrite -reason_failed [respond _ _ _]/(answered _ _ _ _) E /shown_verdict; case: ifP.
by apply: (call_panics V); rewrite /respond E.
Qed.

(** ** C55: the asynchronous methods, for every program that implements them *)
Section Async.
Variable prog : request view -> reader.
Hypothesis Hprog : implements (respond api c) prog.

Lemma readable_after s r s1 pre s2 : exec prog s (JCall r) = Some s1 -> run prog s1 pre = Some s2 ->
  all (fun v => vread (js_mem s2) v != None) (arrays_of r).
Proof.
move=> E1 E2; have R : all (fun v => vread (js_mem s1) v != None) (arrays_of r).
  by case: s E1 => m ps /=; case: ifP => // H [<-].
exact: (readable_sizes (run_sizes E2) R).
Qed.

(** Before the first read *)
Lemma before_reads p r s es s' : run prog s es = Some s' -> ~~ has (reads p) es ->
  oget (js_promises s) p = Some (Running (prog r)) ->
  [\/ oget (js_promises s') p = Some (Running (prog r)),
      exists2 rp, prog r = Answer (Ret rp) & oget (js_promises s') p = Some (Finished rp) |
      exists a, oget (js_promises s') p = Some (Settled a)].
Proof.
move=> E N H; have {H} : [\/ oget (js_promises s) p = Some (Running (prog r)),
      exists2 rp, prog r = Answer (Ret rp) & oget (js_promises s) p = Some (Finished rp) |
      exists a, oget (js_promises s) p = Some (Settled a)] by constructor 1.
elim: es s E N => [|e es IH] s /=; first by move=> [<-].
case E: (exec prog s e) => [s1|] // Hr; rewrite negb_or => /andP[N Ns] H; apply: (IH _ Hr Ns).
case: H => [H|[rp Ep H]|[a H]]; have := exec_promise E H.
- case=> [->|[v [k [b [Ee _ _ _ _]]]]|[rp [_ [Ex] _ ->]]|[rp [a [_ ?]]]] //.
  + by constructor 1.
  + by move: N; rewrite Ee /= eqxx.
  by constructor 2; exists rp.
- case=> [->|[v [k [b [_ ?]]]]|[rp' [_ ?]]|[rp' [a [_ _ _ ->]]]] //; first by constructor 2; exists rp.
  by constructor 3; exists a.
by case=> [->|[v [k [b [_ ?]]]]|[rp' [_ ?]]|[rp' [a' [_ ?]]]] //; constructor 3; exists a.
Qed.

(** While the arrays are left alone *)
Definition on_course r (o : outcome reply) m s p : Prop :=
  (forall i v, oget (arrays_of r) i = Some v -> vread (js_mem s) v = vread m v) /\
  [\/ exists2 f, oget (js_promises s) p = Some (Running f) & reads_only r f /\ run_reader m f = Some o,
      exists2 rp, oget (js_promises s) p = Some (Finished rp) & o = Ret rp |
      exists a, oget (js_promises s) p = Some (Settled a)].

Lemma while_alone r o s0 p s es s' : all (fun v => vread (js_mem s0) v != None) (arrays_of r) ->
  run prog s es = Some s' -> all (leaves_alone r) es -> on_course r o (js_mem s0) s p -> on_course r o (js_mem s0) s' p.
Proof.
move=> R0; elim: es s => [|e es IH] s /=; first by move=> [<-].
case E: (exec prog s e) => [s1|] // Hr /andP[L Ls] [M H]; apply: (IH _ Hr Ls).
have Rs : all (fun v => vread (js_mem s) v != None) (arrays_of r).
  elim: (arrays_of r) R0 M => [|v l IHl] //= /andP[Hv Hl] M; rewrite (M 0 v erefl) Hv /=.
  by apply: IHl => // i w Hw; exact: (M i.+1 w Hw).
split; first by move=> i v Hv; rewrite (exec_alone E L Rs Hv) (M i v Hv).
case: H => [[f H [F1 F2]]|[rp H Ho]|[a H]]; have := exec_promise E H.
- case=> [->|[v [k [b [_ [Ef] Ev _ ->]]]]|[rp [_ [Ef] _ ->]]|[rp [a [_ ?]]]] //.
  + by constructor 1; exists f.
  + rewrite Ef in F1 F2; case: F1 => -[i Hi] F1; constructor 1; exists (k b) => //; split; first exact: F1.
    by move: F2; rewrite /= -(M i v Hi) Ev.
  by constructor 2; exists rp => //; move: F2; rewrite Ef => -[->].
- case=> [->|[v [k [b [_ ?]]]]|[rp' [_ ?]]|[rp' [a [_ _ _ ->]]]] //; first by constructor 2; exists rp.
  by constructor 3; exists a.
by case=> [->|[v [k [b [_ ?]]]]|[rp' [_ ?]]|[rp' [a' [_ ?]]]] //; constructor 3; exists a.
Qed.

Lemma course r s s1 pre s2 mid s3 : let p := size (js_promises s) in
  exec prog s (JCall r) = Some s1 -> run prog s1 pre = Some s2 -> ~~ has (reads p) pre ->
  run prog s2 mid = Some s3 -> all (leaves_alone r) mid ->
  exists vals, [/\ call_values (js_mem s2) r vals & on_course r (respond api c vals) (js_mem s2) s3 p].
Proof.
move=> p E1 E2 N E3 L; have R2 := readable_after E1 E2.
have [vals V] := call_values_ex R2; exists vals; split=> //.
apply: (while_alone R2 E3 L); split=> //; have [Ro Hv] := Hprog r; have {}Hv := Hv _ _ V.
have H1 : oget (js_promises s1) p = Some (Running (prog r)).
  by rewrite /p; case: s E1 {p N} => m ps /=; case: ifP => // _ [<-] /=; rewrite oget_rcons eqxx.
case: (before_reads E2 N H1) => [H|[rp Ep H]|[a H]].
- by constructor 1; exists (prog r).
- by constructor 2; exists rp => //; move: Hv; rewrite Ep => -[->].
by constructor 3; exists a.
Qed.

Lemma same_answer m r vals rp : call_values m r vals -> respond api c vals = Ret rp -> gives m (node_sync prog m r) rp.
Proof. by move=> V E; apply: sync_gives; rewrite ((Hprog r).2 _ _ V) E. Qed.

(** A promise is settled with what the synchronous call would give at any moment between the call and
    the first read by its worker, if nobody changes the arrays from then on until it is settled. *)
Theorem C55_async r s s1 pre s2 mid s3 s4 : let p := size (js_promises s) in
  exec prog s (JCall r) = Some s1 -> run prog s1 pre = Some s2 -> ~~ has (reads p) pre ->
  run prog s2 mid = Some s3 -> all (leaves_alone r) mid ->
  exec prog s3 (JSettle p) = Some s4 ->
  exists rp a, [/\ gives (js_mem s2) (node_sync prog (js_mem s2) r) rp, settled s4 p a &
    new_answer (js_mem s3) (js_mem s4) a rp].
Proof.
move=> p E1 E2 N E3 L E4; have [vals [V [_ H]]] := course E1 E2 N E3 L.
have Hp : exists2 rp, oget (js_promises s3) p = Some (Finished rp) & respond api c vals = Ret rp.
  case: H => [[f H _]|[rp H Ho]|[a H]]; last 1 first.
  - by move: E4; rewrite -/p in H *; case: (s3) H => m ps /= ->.
  - by move: E4; rewrite -/p in H *; case: (s3) H => m ps /= ->.
  by exists rp.
case: Hp {H} => rp H Er; exists rp.
move: E4; case: (s3) H => m3 ps3 /= H; rewrite H; have [a [m4 [D A]]] := deliverE m3 rp.
rewrite D => -[<-]; exists a; split=> //; first exact: same_answer V Er.
by rewrite /settled /= oget_replace eqxx (oget_size H).
Qed.

(** ... and it can always be settled by steps of its own worker alone, whatever the other calls do,
    which they do not notice, unless the synchronous call panics. *)
Definition own (p : nat) (e : event) : bool :=
  match e with WRead q | WFinish q | JSettle q => q == p | _ => false end.
Lemma finish p m0 f rp s : oget (js_promises s) p = Some (Running f) -> js_mem s = m0 ->
  run_reader m0 f = Some (Ret rp) -> exists es s', [/\ run prog s es = Some s', all (own p) es,
    exists2 a, settled s' p a & new_answer m0 (js_mem s') a rp & forall q, q <> p -> oget (js_promises s') q = oget (js_promises s) q].
Proof.
elim: f s => [o|v k IH] [m ps] /= H Em.
  move=> [Eo]; rewrite Eo in H; have [a [m' [D A]]] := deliverE m rp.
  exists [:: WFinish p; JSettle p], (MkJs m' (replace_at (replace_at ps p (Finished rp)) p (Settled a))); split.
  - by rewrite /= H /= oget_replace eqxx (oget_size H) /= D.
  - by rewrite /= eqxx.
  - by exists a; [rewrite /settled /= oget_replace eqxx size_replace (oget_size H)|rewrite -Em].
  by move=> q Hq /=; rewrite !oget_replace; case: eqP => // E; case: Hq.
rewrite -Em; case Ev: (vread m v) => [b|] // Er.
have H' : oget (js_promises (MkJs m (replace_at ps p (Running (k b))))) p = Some (Running (k b)).
  by rewrite /= oget_replace eqxx (oget_size H).
rewrite Em in Er; have [es [s' [E1 E2 E3 E4]]] := IH b (MkJs m (replace_at ps p (Running (k b)))) H' Em Er.
exists (WRead p :: es), s'; split; [by rewrite /= H Ev E1|by rewrite /= eqxx|by rewrite Em|].
move=> q Hq; rewrite (E4 _ Hq) /= oget_replace; by case: eqP => // E; case: Hq.
Qed.

Theorem C55_progress r s s1 pre s2 mid s3 : let p := size (js_promises s) in
  exec prog s (JCall r) = Some s1 -> run prog s1 pre = Some s2 -> ~~ has (reads p) pre ->
  run prog s2 mid = Some s3 -> all (leaves_alone r) mid ->
  node_sync prog (js_mem s2) r <> Some Panic ->
  exists es s4, [/\ run prog s3 es = Some s4, all (own p) es, exists a, settled s4 p a &
    forall q, q <> p -> oget (js_promises s4) q = oget (js_promises s3) q].
Proof.
move=> p E1 E2 N E3 L; have [vals [V [M H]]] := course E1 E2 N E3 L.
rewrite /node_sync ((Hprog r).2 _ _ V) => NP.
case: H => [[f H [F1 F2]]|[rp H Ho]|[a H]].
- case Er: (respond api c vals) NP => [rp|] // _.
  have Rr : run_reader (js_mem s3) f = Some (Ret rp) by rewrite -Er -F2; exact: (run_reader_eq F1 M).
  have [es [s4 [X1 X2 [a X3 _] X4]]] := finish H erefl Rr; exists es, s4; by split=> //; exists a.
- have [a [m' [D _]]] := deliverE (js_mem s3) rp; case: (s3) H D => m3 ps3 /= H D.
  exists [:: JSettle p], (MkJs m' (replace_at ps3 p (Settled a))); split.
  + by rewrite /= H D.
  + by rewrite /= eqxx.
  + by exists a; rewrite /settled /= oget_replace eqxx (oget_size H).
  by move=> q Hq /=; rewrite oget_replace; case: eqP => // E; case: Hq.
by exists [::], s3; split=> //; exists a.
Qed.

(** A settled promise stays as it is. *)
Theorem C55_settled s es s' p a : run prog s es = Some s' -> settled s p a -> settled s' p a.
Proof.
rewrite /settled; elim: es s => [|e es IH] s /=; first by move=> [<-].
case E: (exec prog s e) => [s1|] // Hr H; apply: (IH _ Hr).
by have := exec_promise E H; case=> [->|[v [k [b [_ ?]]]]|[rp' [_ ?]]|[rp' [a' [_ ?]]]].
Qed.

(** Claim: a promise is settled with what the synchronous call gives when the method is called. It is
    false: if the blob is changed before the worker reads it, the answer is for the new blob. *)
Theorem C55_call_time_refuted b b' com com' : size b = 2 ^ 17 -> size b' = 2 ^ 17 ->
  ra_blob_to_kzg_commitment api c b = Ret (Ok com) -> ra_blob_to_kzg_commitment api c b' = Ret (Ok com') ->
  com <> com' ->
  exists s r es s', [/\ run prog s (JCall r :: es) = Some s', gives (js_mem s) (node_sync prog (js_mem s) r) (RBytes com) &
    exists v, settled s' (size (js_promises s)) (AArray v) /\ vread (js_mem s') v = Some com'].
Proof.
move=> Sb Sb' E E' ne; pose v := MkView 0 0 (size b); pose s := MkJs [:: b] [::].
have Vb x n : size x = n -> vread [:: x] (MkView 0 0 n) = Some x.
  by move=> <-; rewrite /vread /= leqnn drop0 take_size.
have E1 : exec prog s (JCall (Commit v)) = Some (MkJs [:: b] [:: Running (prog (Commit v))]).
  by rewrite /= (Vb b (size b) erefl).
have E2 : run prog (MkJs [:: b] [:: Running (prog (Commit v))]) [:: JWrite 0 0 b'] =
    Some (MkJs [:: b'] [:: Running (prog (Commit v))]).
  by rewrite /= /vwrite /= Sb Sb' leqnn take0 -Sb drop_size cats0.
have P x cx : size x = 2 ^ 17 -> ra_blob_to_kzg_commitment api c x = Ret (Ok cx) ->
    run_reader [:: x] (prog (Commit v)) = Some (Ret (RBytes cx)).
  move=> Sx Ex; rewrite ((Hprog (Commit v)).2 [:: x] (Commit x)).
    by have [_ H _ _] := C40_blob_passes api c Sx; rewrite /= H Ex.
  by apply/holds1; apply: Vb; rewrite Sx Sb.
have H0 : oget (js_promises (MkJs [:: b'] [:: Running (prog (Commit v))])) 0 = Some (Running (prog (Commit v))) by [].
have [es [s4 [E4 O [a A W] _]]] := finish H0 erefl (P _ _ Sb' E').
exists s, (Commit v), (JWrite 0 0 b' :: es), s4; split.
- by rewrite (run_cons _ E1) -[_ :: es]/([:: _] ++ es) run_cat E2.
- by apply: sync_gives; exact: P.
case: a A W => //= w A [_ /holds1 W _ _].
by exists w.
Qed.
End Async.
End Calls.

(** ** With the library of Eip7594.v *)
Section Library.
Variables (G1 G2 GT : lmodType Fr) (env : das_env G1 G2 GT).
Hypothesis std : env_std env.
Variables (g1s : seq G1) (g2s : seq G2) (ctx : das_context G1 G2).
Hypothesis S1 : size g1s = (2 ^ 12)%N.
Hypothesis S2 : size g2s = 65%N.
Hypothesis Hctx : das_context_new fr_params eip7594_consts g1s g2s PrecompNo = Ret ctx.
Variables (new : bool -> N -> outcome (das_context G1 G2)) (debug : error -> seq byte).
Local Notation api := (eip7594_api env new debug).
Local Notation prog := (read_once api ctx).

Lemma gives_inj m call r r' : gives m call r -> gives m call r' ->
  match r, r' with
  | RBytes b, RBytes b' => b = b'
  | RCellsAndProofs c p, RCellsAndProofs c' p' => c = c' /\ p = p'
  | RCells c, RCells c' => c = c'
  | RBool b, RBool b' => b = b'
  | RError e, RError e' => e = e'
  | _, _ => False
  end.
Proof.
have inj (x y : seq (seq byte)) : map Some x = map Some y -> x = y.
  by elim: x y => [|a x IH] [|b y] //= [-> /IH ->].
move=> [a [m' [-> A]]] [a' [m2 [[<- <-] A']]].
case: a r r' A A' => [v|vc vp|vc|b|msg] [b1|c1 p1|c1|b1|e1] [b2|c2 p2|c2|b2|e2] //=.
- by move=> [_ H _ _] [_ H' _ _]; have [] := inj [:: b1] [:: b2] (etrans (esym H) H').
- move=> [Z1 Z2 [_ H _ _]] [Z1' Z2' [_ H' _ _]]; have /eqP := inj _ _ (etrans (esym H) H').
  by rewrite eqseq_cat -?Z1 ?Z1' // => /andP[/eqP -> /eqP ->].
- by move=> [_ H _ _] [_ H' _ _]; exact: (inj _ _ (etrans (esym H) H')).
- by move=> [<- _] [<- _].
by move=> [<- _] [<- _].
Qed.

(** Recovering from any half of the cells that compute gave gives the same cells and proofs. *)
Theorem C54_recover_same m v b cells proofs m2 vs ids : vread m v = Some b ->
  gives m (node_sync prog m (Compute v)) (RCellsAndProofs cells proofs) ->
  all cell_number ids -> uniq [seq Z.to_N z | z <- ids] -> 64 <= size ids ->
  holds m2 vs [seq nth [::] cells (Z.to_nat z) | z <- ids] ->
  gives m2 (node_sync prog m2 (Recover ids vs)) (RCellsAndProofs cells proofs).
Proof.
move=> Hv Hc Ha Hu Hs Hh; have := C54_compute api ctx Hv; case: eqP => [Sb|_]; last by move/gives_inj/(_ Hc).
rewrite /gives_library; case E: (ra_compute api ctx b) => [[[cells' proofs']|e]|]; last 2 first.
- by move/gives_inj/(_ Hc).
- by case: Hc => a [m' [-> _]].
move/gives_inj/(_ Hc) => [/= E1 E2]; rewrite E1 E2 in E.
have [Em Hr] := cell_numbers Ha.
have R := C06_recover_any_half std S1 S2 Hctx Sb E Hu Hr.
rewrite size_map in R; move/(_ Hs): R => R.
have En : [seq nth [::] cells (N.to_nat i) | i <- [seq Z.to_N z | z <- ids]] = [seq nth [::] cells (Z.to_nat z) | z <- ids].
  by rewrite -map_comp; apply: eq_map => z /=; rewrite Z_N_nat.
rewrite En in R.
have [Sc Sh _] := C01_systematic std S1 S2 Hctx Sb E.
have Sz : all (fun x => size x == 2048) [seq nth [::] cells (Z.to_nat z) | z <- ids].
  rewrite all_map; move: Ha; apply: sub_all => z /andP[/Z.leb_le H1 /Z.leb_le H2] /=.
  by apply: (all_nthP [::] Sh); rewrite Sc; lia.
have Hn : all (fun z => (0 <=? z)%Z) ids by move: Ha; apply: sub_all => z /andP[].
have := C54_recover api ctx ids Hh; cbv zeta; rewrite Sz Hn Em /gives_library.
by rewrite -[ra_recover api _ _ _]/(Eip7594.recover_cells_and_kzg_proofs env eip7594_consts ctx _ _) R.
Qed.

Lemma honest_sizes com k cell proof : honest env ctx com k cell proof ->
  [/\ size com = 48, size cell = 2048, size proof = 48 & (k <? 128)%num].
Proof.
have T := C37_eip7594_typed std S1 S2 Hctx new debug.
move=> [b [bc [bp [[Sb Hk Ec Ep] [-> ->]]]]].
have [Z1 Z2 Z3 Z4] := at_compute T Sb Ep.
rewrite (at_commitment T Sb Ec); split=> //.
- by apply/eqP; apply: (all_nthP [::] Z3); rewrite Z1; lia.
- by apply/eqP; apply: (all_nthP [::] Z4); rewrite Z2; lia.
exact/N.ltb_lt.
Qed.

Theorem C54_honest_true (tau : Fr) (G : G1) (H : G2) m vc ids vd vp coms cells proofs :
  g1s = srs_of tau G (2 ^ 12) -> g2s = srs_of tau H 65 ->
  holds m vc coms -> holds m vd cells -> holds m vp proofs ->
  size ids = size coms -> size cells = size coms -> size proofs = size coms ->
  all cell_number ids ->
  (forall t, t < size coms -> honest env ctx (nth [::] coms t) (Z.to_N (nth 0%Z ids t))
     (nth [::] cells t) (nth [::] proofs t)) ->
  gives m (node_sync prog m (Verify vc ids vd vp)) (RBool true).
Proof.
move=> E1 E2 Hm Hc Hp Si Sc Sp Ha Hh; have [Em Hr] := cell_numbers Ha.
have V := @C10_honest_verifies _ _ _ _ std _ _ _ S1 S2 Hctx tau G H coms [seq Z.to_N z | z <- ids] cells proofs E1 E2.
rewrite size_map in V; have {}V := V Si Sc Sp.
have T : [/\ all (fun x => size x == 48) coms, all (fun x => size x == 2048) cells & all (fun x => size x == 48) proofs].
  by split; apply/(all_nthP [::]) => t; rewrite ?Sc ?Sp => /Hh/honest_sizes[/eqP ? /eqP ? /eqP ? _].
case: T => T1 T2 T3.
have Hn : all (fun z => (0 <=? z)%Z) ids by move: Ha; apply: sub_all => z /andP[].
have := C54_verify api ctx ids Hm Hc Hp; cbv zeta; rewrite Hn T1 T2 T3 Em.
rewrite -[ra_verify api _ _ _ _ _]/(Eip7594.verify_cell_kzg_proof_batch env eip7594_consts ctx _ _ _ _) V //.
by move=> t Ht; rewrite (nth_map 0%Z) ?Si //; exact: Hh.
Qed.

(** Claim: if verifyCellKZGProofBatch, called asynchronously, gives true, then the batch was valid at
    some moment between the call and the answer. It is false if the arrays change meanwhile. *)
Fixpoint chain (s : jsst) (es : seq event) (sts : seq jsst) : Prop :=
  match es, sts with
  | [::], [::] => True
  | e :: es, t :: sts => exec prog s e = Some t /\ chain t es sts
  | _, _ => False
  end.
Lemma chain_run s es sts : chain s es sts -> run prog s es = Some (last s sts).
Proof. by elim: es s sts => [|e es IH] s [|t sts] //= [-> /IH]. Qed.
Fixpoint everywhere (P : jsst -> Prop) (sts : seq jsst) : Prop :=
  if sts is t :: sts then P t /\ everywhere P sts else True.
Lemma chain_prefix P s es sts pre post t : chain s es sts -> everywhere P (s :: sts) ->
  es = pre ++ post -> run prog s pre = Some t -> P t.
Proof.
elim: pre s es sts => [|e pre IH] s es sts /= Hc [Ps Pt] E; first by move=> [<-].
case: es E Hc => [|e' es] //= [<- E]; case: sts Pt => [|t' sts] //= [Pt' Ps'] [-> Hc].
exact: (IH _ _ _ Hc (conj Pt' Ps') E).
Qed.

Lemma not_true m vc ids vd vp coms cells proofs bad : holds m vc coms -> holds m vd cells -> holds m vp proofs ->
  all cell_number ids -> all_size 48 coms -> all_size 2048 cells -> all_size 48 proofs ->
  size proofs = size coms -> bad \in proofs -> ~ point_bytes env bad ->
  ~ gives m (node_sync prog m (Verify vc ids vd vp)) (RBool true).
Proof.
move=> Hm Hc Hp Ha T1 T2 T3 Sp Hb Nb; have [Em Hr] := cell_numbers Ha.
have Hn : all (fun z => (0 <=? z)%Z) ids by move: Ha; apply: sub_all => z /andP[].
have := C54_verify api ctx ids Hm Hc Hp; cbv zeta; rewrite Hn Em.
rewrite -/(all_size 48 coms) -/(all_size 2048 cells) -/(all_size 48 proofs) T1 T2 T3.
rewrite -[ra_verify api _ _ _ _ _]/(Eip7594.verify_cell_kzg_proof_batch env eip7594_consts ctx _ _ _ _).
have [[C [P [I [sh O]]]]|[e Ev Hinv]] := verify_run std S1 S2 Hctx [seq Z.to_N z | z <- ids] (And3 T1 T2 T3).
  exfalso; move: Hb => /(nthP [::])[i Hi Ei]; rewrite Sp in Hi; have [_ HP _] := O i Hi.
  by apply: Nb; exists (P i); rewrite HP Ei.
rewrite Ev -[ra_invalid_proof api e]/(invalid_proof e) Hinv => H1 H2.
exact: (gives_inj H1 H2).
Qed.

Theorem C55_torn_refuted (tau : Fr) (G : G1) (H : G2) com k cell proof bad :
  g1s = srs_of tau G (2 ^ 12) -> g2s = srs_of tau H 65 ->
  honest env ctx com k cell proof -> size bad = 48 -> ~ point_bytes env bad ->
  exists s r es s', [/\ run prog s (JCall r :: es) = Some s',
    forall pre post t, JCall r :: es = pre ++ post -> run prog s pre = Some t ->
      ~ gives (js_mem t) (node_sync prog (js_mem t) r) (RBool true) &
    settled s' 0 (ABool true)].
Proof.
move=> E1 E2 Hh Sbad Nbad; have [Sm Sc Sp Hk] := honest_sizes Hh.
pose w i (b : seq byte) := MkView i 0 (size b).
pose ids := [:: Z.of_N k; Z.of_N k].
pose r := Verify [:: w 0 com; w 0 com] ids [:: w 1 cell; w 1 cell] [:: w 2 proof; w 3 bad].
pose mem x y : jsmem := [:: com; cell; x; y].
have Rd i (b : seq byte) n x y : oget (mem x y) i = Some b -> n = size b -> vread (mem x y) (MkView i 0 n) = Some b.
  by move=> E ->; rewrite /vread [v_buffer _]/= E /= add0n leqnn drop0 take_size.
have R0 x y : vread (mem x y) (w 0 com) = Some com by exact: Rd.
have R1 x y : vread (mem x y) (w 1 cell) = Some cell by exact: Rd.
have R2 x y : size x = 48 -> vread (mem x y) (w 2 proof) = Some x by move=> Sx; apply: Rd; rewrite ?Sx.
have R3 x y : size y = 48 -> vread (mem x y) (w 3 bad) = Some y by move=> Sy; apply: Rd; rewrite ?Sy.
have W2 x y z : size x = 48 -> size z = 48 -> vwrite (mem x y) 2 0 z = Some (mem z y).
  move=> Sx Sz; rewrite /vwrite [oget _ _]/= add0n Sx Sz leqnn take0 cat0s.
  by rewrite drop_oversize ?Sx // cats0.
have W3 x y z : size y = 48 -> size z = 48 -> vwrite (mem x y) 3 0 z = Some (mem x z).
  move=> Sx Sz; rewrite /vwrite [oget _ _]/= add0n Sx Sz leqnn take0 cat0s.
  by rewrite drop_oversize ?Sx // cats0.
pose st x y f := MkJs (mem x y) [:: Running f].
have Rs x y v b f : vread (mem x y) v = Some b -> exec prog (st x y (Read v f)) (WRead 0) = Some (st x y (f b)).
  by move=> E; rewrite /= E.
pose A l := Answer (respond api ctx (Verify [:: com; com] ids [:: cell; cell] l)).
pose F5 := read_list [:: w 2 proof; w 3 bad] A.
pose F4 := Read (w 1 cell) (fun b => read_list [:: w 2 proof; w 3 bad]
  (fun l => Answer (respond api ctx (Verify [:: com; com] ids [:: cell; b] l)))).
pose F3 := read_list [:: w 1 cell; w 1 cell] (fun cs => read_list [:: w 2 proof; w 3 bad]
  (fun l => Answer (respond api ctx (Verify [:: com; com] ids cs l)))).
pose F2 := Read (w 0 com) (fun b => read_list [:: w 1 cell; w 1 cell] (fun cs => read_list [:: w 2 proof; w 3 bad]
  (fun l => Answer (respond api ctx (Verify [:: com; b] ids cs l))))).
pose F6 := Read (w 3 bad) (fun b => A [:: proof; b]).
have Ha : all cell_number ids.
  by rewrite /= /cell_number andbT andbb; move/N.ltb_lt: Hk => Hk; apply/andP; split; apply/Z.leb_le; lia.
have Tm : all_size 48 [:: com; com] by rewrite /all_size /= Sm.
have Tc : all_size 2048 [:: cell; cell] by rewrite /all_size /= Sc eqxx.
have No x y : size x = 48 -> size y = 48 -> bad \in [:: x; y] ->
    ~ gives (mem x y) (node_sync prog (mem x y) r) (RBool true).
  move=> Sx Sy Hb; apply: (@not_true _ _ _ _ _ [:: com; com] [:: cell; cell] [:: x; y] bad) => //.
  - by rewrite /holds /= R0.
  - by rewrite /holds /= R1.
  - by rewrite /holds /= R2 // R3.
  by rewrite /all_size /= Sx Sy.
have Yes : respond api ctx (Verify [:: com; com] ids [:: cell; cell] [:: proof; proof]) = Ret (RBool true).
  have Tp : all_size 48 [:: proof; proof] by rewrite /all_size /= Sp.
  have Hn : all (fun z => (0 <=? z)%Z) ids by move: Ha; apply: sub_all => z /andP[].
  have [_ E] := C40_node_passes api ctx Hn Tm Tc Tp; rewrite /respond E; have [-> _] := cell_numbers Ha.
  rewrite -[ra_verify api _ _ _ _ _]/(Eip7594.verify_cell_kzg_proof_batch env eip7594_consts ctx _ _ _ _).
  have -> : [seq Z.to_N z | z <- ids] = [:: k; k] by rewrite /= N2Z.id.
  rewrite (@C10_honest_verifies _ _ _ _ std _ _ _ S1 S2 Hctx tau G H) //.
  by case=> [|[|]].
exists (MkJs (mem proof bad) [::]), r.
exists [:: WRead 0; WRead 0; WRead 0; WRead 0; WRead 0; JWrite 2 0 bad; JWrite 3 0 proof; WRead 0; WFinish 0; JSettle 0].
exists (MkJs (mem bad proof) [:: Settled (ABool true)]).
pose sts := [:: st proof bad (prog r); st proof bad F2; st proof bad F3; st proof bad F4; st proof bad F5; st proof bad F6;
  st bad bad F6; st bad proof F6; st bad proof (A [:: proof; proof]); MkJs (mem bad proof) [:: Finished (RBool true)];
  MkJs (mem bad proof) [:: Settled (ABool true)]].
have Ch : chain (MkJs (mem proof bad) [::]) [:: JCall r; WRead 0; WRead 0; WRead 0; WRead 0; WRead 0; JWrite 2 0 bad;
    JWrite 3 0 proof; WRead 0; WFinish 0; JSettle 0] sts.
  have X0 : exec prog (MkJs (mem proof bad) [::]) (JCall r) = Some (st proof bad (prog r)).
    by rewrite /exec ifT // /arrays_of /= R0 R1 R2 // R3.
  have X6 : exec prog (st proof bad F6) (JWrite 2 0 bad) = Some (st bad bad F6) by rewrite /= W2.
  have X7 : exec prog (st bad bad F6) (JWrite 3 0 proof) = Some (st bad proof F6) by rewrite /= W3.
  have X9 : exec prog (st bad proof (A [:: proof; proof])) (WFinish 0) = Some (MkJs (mem bad proof) [:: Finished (RBool true)]).
    by rewrite /A Yes.
  have Y1 := Rs proof bad _ _ (fun b => read_list [:: w 0 com] (fun l => read_list [:: w 1 cell; w 1 cell] (fun cs =>
     read_list [:: w 2 proof; w 3 bad] (fun q => Answer (respond api ctx (Verify (b :: l) ids cs q)))))) (R0 proof bad).
  have Y2 := Rs proof bad _ _ (fun b => read_list [:: w 1 cell; w 1 cell] (fun cs => read_list [:: w 2 proof; w 3 bad]
     (fun l => Answer (respond api ctx (Verify [:: com; b] ids cs l))))) (R0 proof bad).
  have Y3 := Rs proof bad _ _ (fun b => read_list [:: w 1 cell] (fun cs => read_list [:: w 2 proof; w 3 bad]
     (fun l => Answer (respond api ctx (Verify [:: com; com] ids (b :: cs) l))))) (R1 proof bad).
  have Y4 := Rs proof bad _ _ (fun b => read_list [:: w 2 proof; w 3 bad]
     (fun l => Answer (respond api ctx (Verify [:: com; com] ids [:: cell; b] l)))) (R1 proof bad).
  have Y5 := Rs proof bad _ _ (fun b => read_list [:: w 3 bad] (fun l => A (b :: l))) (R2 proof bad Sp).
  have Y8 := Rs bad proof _ _ (fun b => A [:: proof; b]) (R3 bad proof Sp).
  by split; [exact: X0|]; split; [exact: Y1|]; split; [exact: Y2|]; split; [exact: Y3|]; split; [exact: Y4|];
    split; [exact: Y5|]; split; [exact: X6|]; split; [exact: X7|]; split; [exact: Y8|]; split; [exact: X9|]; split.
split; [exact: (chain_run Ch)| |exact: erefl].
move=> pre post t Ep Er; apply: (chain_prefix (P := fun t => ~ gives (js_mem t) (node_sync prog (js_mem t) r) (RBool true)) Ch _ Ep Er).
have N1 : ~ gives (mem proof bad) (node_sync prog (mem proof bad) r) (RBool true) by apply: No; rewrite // !inE eqxx orbT.
have N2 : ~ gives (mem bad bad) (node_sync prog (mem bad bad) r) (RBool true) by apply: No; rewrite // !inE eqxx.
have N3 : ~ gives (mem bad proof) (node_sync prog (mem bad proof) r) (RBool true) by apply: No; rewrite // !inE eqxx.
by do 11!split=> //.
Qed.
End Library.
