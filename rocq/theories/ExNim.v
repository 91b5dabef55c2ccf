(** Concrete instances of the hypotheses of PropNim.v, with the library of ExC.v. *)

From Coq Require Import NArith Init.Byte Strings.Byte.
From mathcomp Require Import ssreflect ssrfun ssrbool eqtype ssrnat seq.
From Verif Require Import Base Bytes Eip7594 CMem CApi SpecC CsApi SpecCs ExC NimApi PropNim.

Set Implicit Arguments.
Unset Strict Implicit.
Unset Printing Implicit Defensive.
Local Opaque nseq toy_outputs full_blob.

Definition nim_48 : seq byte := nseq 48 "001"%byte.
Definition nim_cell (b : byte) : seq byte := nseq 2048 b.
Lemma nim_right n (s : seq byte) : size s = n -> all_right n [:: s].
Proof. by move=> S [|i]. Qed.
Lemma nim_48_right : all_right 48 [:: nim_48].
Proof. exact: nim_right (size_nseq _ _). Qed.
Lemma nim_cell_right b : all_right 2048 [:: nim_cell b].
Proof. exact: nim_right (size_nseq _ _). Qed.
Lemma nim_cell_first b x : nth x (nim_cell b) 0 = b.
Proof. exact: nth_nseq_pos. Qed.
Local Opaque nim_cell nim_48.

(** A commitment, a refused blob, a right and a wrong proof, lists of different lengths. *)
Definition nim_calls : seq nim_call :=
  [:: NimCommit (full_blob "002"); NimCommit (full_blob "255");
      NimVerify [:: nim_48] [:: 1%num] [:: nim_cell "003"] [:: nim_48];
      NimVerify [:: nim_48] [:: 1%num] [:: nim_cell "255"] [:: nim_48];
      NimVerify [:: nim_48] [::] [:: nim_cell "003"] [:: nim_48];
      NimRecover [:: 1%num] [:: nim_cell "003"]; NimRecover [::] [:: nim_cell "003"]].

Lemma nim_calls_typed i : i < size nim_calls -> nim_typed (nth (NimCommit [::]) nim_calls i).
Proof.
have V b : [/\ all_right 48 [:: nim_48], all_right 2048 [:: nim_cell b] & all_right 48 [:: nim_48]].
  exact (And3 nim_48_right (@nim_cell_right b) nim_48_right).
move: i => [|[|[|[|[|[|[|i]]]]]]] Hi.
- exact: full_blob_size.
- exact: full_blob_size.
- exact: V.
- exact: V.
- exact: V.
- exact: nim_cell_right.
- exact: nim_cell_right.
by [].
Qed.

Lemma nim_commit_answer b : nim_answers toy 4 (NimCommit (full_blob b)) =
  if b == "255"%byte then AError 1 else AValue (NimBytes (nseq 48 b)).
Proof. by rewrite /nim_answers /toy /= /toy_bad full_blob_first; case: eqP. Qed.
Lemma nim_verify_answer b : nim_answers toy 4 (NimVerify [:: nim_48] [:: 1%num] [:: nim_cell b] [:: nim_48]) =
  AValue (NimBool (b != "255"%byte)).
Proof. by rewrite /nim_answers /toy /= /toy_bad nim_cell_first; case: eqP. Qed.

Lemma runs_value x xs v rs ab : nim_answers toy 4 x = AValue v -> nim_runs toy 4 (x :: xs) rs ab ->
  exists2 rs', rs = NimOk v :: rs' & nim_runs toy 4 xs rs' ab.
Proof.
move=> E; move El: (x :: xs) => l R.
case: R El => [|y ys w rs' ab' Ey R|y ys e t rs' ab' Ey R|y ys Ey] // -[Ex El]; move: Ey; rewrite -Ex E // => -[<-].
by exists rs'; rewrite // El.
Qed.
Lemma runs_error x xs e rs ab : nim_answers toy 4 x = AError e -> nim_runs toy 4 (x :: xs) rs ab ->
  exists t rs', rs = NimErr t :: rs' /\ nim_runs toy 4 xs rs' ab.
Proof.
move=> E; move El: (x :: xs) => l R.
case: R El => [|y ys w rs' ab' Ey R|y ys e' t rs' ab' Ey R|y ys Ey] // -[Ex El]; move: Ey; rewrite -Ex E // => _.
by exists t, rs'; rewrite El.
Qed.

(** The results are determined up to the texts, and there is no abort. *)
Example nim_example dollar : exists t1 t2 t3 m',
  nim_program toy dollar true 4 nim_calls [::] = CRet (
    [:: NimOk (NimBytes (nseq 48 "002"%byte)); NimErr t1; NimOk (NimBool true); NimOk (NimBool false); NimErr t2;
        NimOk (NimArrays (toy_outputs "007").1 (toy_outputs "007").2); NimErr t3], m') /\
  same_native [::] m'.
Proof.
have [rs [ab [R H]]] := @C50_program _ _ toy dollar toy_no_nul true 4 4 nim_calls [::] erefl (toy_typed 4) nim_calls_typed.
have A1 := nim_commit_answer "002"; have A2 := nim_commit_answer "255".
have A3 := nim_verify_answer "003"; have A4 := nim_verify_answer "255".
have A5 : nim_answers toy 4 (NimVerify [:: nim_48] [::] [:: nim_cell "003"] [:: nim_48]) = AError 2 by [].
have A6 : nim_answers toy 4 (NimRecover [:: 1%num] [:: nim_cell "003"]) =
  AValue (NimArrays (toy_outputs "007").1 (toy_outputs "007").2) by [].
have A7 : nim_answers toy 4 (NimRecover [::] [:: nim_cell "003"]) = AError 2 by [].
have [r1 E1 R1] := runs_value A1 R; have [t1 [r2 [E2 R2]]] := runs_error A2 R1.
have [r3 E3 R3] := runs_value A3 R2; have [r4 E4 R4] := runs_value A4 R3.
have [t2 [r5 [E5 R5]]] := runs_error A5 R4; have [r6 E6 R6] := runs_value A6 R5.
have [t3 [r7 [E7 R7]]] := runs_error A7 R6; inversion R7; subst.
by case: H => m' H; exists t1, t2, t3, m'.
Qed.

Example C50_call_applies dollar : exists text m',
  nim_exec toy dollar (Addr 0 0) (NimCommit (full_blob "255")) [:: Some (BCtx 4)] = CRet (NimErr text, m') /\
  same_native [:: Some (BCtx 4)] m'.
Proof.
have Hc : ctx_at [:: Some (BCtx 4)] (Addr 0 0) 4 by exists 0.
have := @C50_call _ _ toy dollar toy_no_nul (Addr 0 0) 4 (NimCommit (full_blob "255")) _ Hc (toy_typed 4) (full_blob_size _).
exact.
Qed.

Example C50_text_applies dollar : exists text m1 m2,
  nim_exec toy dollar (Addr 0 0) (NimCommit (full_blob "255")) [:: Some (BCtx 4)] = CRet (NimErr text, m1) /\
  nim_exec toy dollar (Addr 0 0) (NimCommit ("255"%byte :: behead (full_blob "003"))) [:: Some (BCtx 4)] =
    CRet (NimErr text, m2).
Proof.
have Hc : ctx_at [:: Some (BCtx 4)] (Addr 0 0) 4 by exists 0.
have S : size ("255"%byte :: behead (full_blob "003")) = 2 ^ 17.
  by rewrite /= size_behead full_blob_size prednK // expn_gt0.
exact: (C50_text dollar toy_no_nul Hc (toy_typed 4) (call := NimCommit (full_blob "255"))
  (call' := NimCommit ("255"%byte :: behead (full_blob "003"))) (full_blob_size _) S erefl
  (nim_commit_answer "255") erefl).
Qed.
