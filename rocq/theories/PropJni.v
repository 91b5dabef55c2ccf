(** Properties of the native methods of the Java binding on the Java heap (C52) and of the class
    CellsAndProofs (C53). *)

From Coq Require Import ZArith NArith Init.Byte Strings.Byte Strings.String DecimalString.
From mathcomp Require Import ssreflect ssrfun ssrbool eqtype ssrnat seq ssralg.
From Verif Require Import Base Bytes Spec SpecKZG SpecDAS SpecFr FrEnv Fr FixedBaseMSM FK20Verifier Eip7594 Eip7594Proofs.
From Verif Require Import PolyCoeffProofs SpecVerify ApiEip PropProver PropRecover PropVerify.
From Verif Require Import CApi CProofs SpecC PropC Managed Jni SpecJni JniProofs CapProofs.
From mathcomp Require Import zify_ssreflect.

Set Implicit Arguments.
Unset Strict Implicit.
Unset Printing Implicit Defensive.

Import GRing.Theory.

Section Calls.
Variables (ctx err : Type) (api : rust_api ctx err) (jni_debug : jni_error -> seq byte) (c : ctx).

(** The call throws an IllegalArgumentException with this reason, and no object has changed. *)
Definition throws (A : Type) (call : jcall A) (h : seq jobj) (func : string) (reason : seq byte) : Prop :=
  call = ThrowsIllegalArgument (thrown func reason) h.

Lemma text_app s1 s2 : text (s1 ++ s2) = text s1 ++ text s2.
Proof. by elim: s1 => [|a s IH] //; exact: (congr1 (cons (Ascii.byte_of_ascii a)) IH). Qed.

Lemma extern_ok (A : Type) (d : A) func (f : jM (result A (jerror err))) h a h' n :
  f (MkJst h 0 None) = JRet (Ok a) (MkJst h' n None) ->
  java_call (extern_fn api jni_debug d func f) h = Returns a h'.
Proof. by move=> H; rewrite /java_call /extern_fn /jbind H. Qed.
Lemma extern_err (A : Type) (d : A) func (f : jM (result A (jerror err))) h e n :
  f (MkJst h 0 None) = JRet (Err e) (MkJst h n None) ->
  throws (java_call (extern_fn api jni_debug d func f) h) h func (reason api jni_debug e).
Proof.
move=> H; rewrite /throws /java_call /extern_fn /jbind H /throw_on_error /throw_new.
by rewrite -/(text (_ ++ _)) !text_app /thrown -!catA.
Qed.
Lemma extern_panic (A : Type) (d : A) func (f : jM (result A (jerror err))) h :
  f (MkJst h 0 None) = JPanic -> java_call (extern_fn api jni_debug d func f) h = Crash.
Proof. by move=> H; rewrite /java_call /extern_fn /jbind H. Qed.
Lemma locals_ok (A : Type) (d : A) func (f : jM (result A (jerror err))) h r h' n :
  f (MkJst h 0 None) = JRet r (MkJst h' n None) ->
  locals_of (extern_fn api jni_debug d func f) h = Some n.
Proof. by move=> H; rewrite /locals_of /extern_fn /jbind H; case: r {H}. Qed.

Lemma reason_size e g nm : reason api jni_debug (ESize e g nm) =
  wrong_size (name_text nm) (number (N.of_nat e)) (number (N.of_nat g)).
Proof. by rewrite /reason -/(text (_ ++ _)) text_app /wrong_size -!catA. Qed.
Lemma number_blob : number (N.of_nat (2 ^ 17)) = text "131072".
Proof. by rewrite N_of_nat_expn2. Qed.

Lemma to_arrays_ok n nm (l : seq (seq byte)) s : all (fun x => size x == n) l ->
  to_arrays err n nm l s = JRet (Ok l) s.
Proof.
rewrite /to_arrays /jret => H; congr (JRet _ s); elim: l H => [|x l IH] //= /andP[Hx /IH ->].
by rewrite /to_array Hx.
Qed.
Lemma to_arrays_bad n nm (l : seq (seq byte)) s : ~~ all (fun x => size x == n) l ->
  to_arrays err n nm l s = JRet (Err (ESize n (first_wrong n l) nm)) s.
Proof.
rewrite /to_arrays /jret => H; congr (JRet _ s); elim: l H => [|x l IH] //=.
rewrite /first_wrong /= /to_array; case: eqP => [_ /= /IH ->|ne _] //=.
Qed.

(** ** C52 *)
Theorem C52_compute h blob v : value_bytes h blob v ->
  let call := java_call (native_compute api jni_debug c blob) h in
  match v with
  | None => exists reason, throws call h "computeCellsAndKZGProofs" reason
  | Some b =>
    if size b == 2 ^ 17 then
      match ra_compute api c b with
      | Ret (Ok (cells, proofs)) => exists r h', call = Returns r h' /\ new_cap h h' r cells proofs
      | Ret (Err e) => throws call h "computeCellsAndKZGProofs" (ra_debug api e)
      | Panic => call = Crash
      end
    else throws call h "computeCellsAndKZGProofs"
           (wrong_size "blob" (text "131072") (number (N.of_nat (size b))))
  end.
Proof.
move=> Hv; have C n p := @convert_byte_arrayE err h n p blob v Hv.
rewrite /native_compute /compute_cells_and_kzg_proofs c_blob; case: v {Hv} C => [b|] C; last first.
  by eexists; apply: extern_err; rewrite (jq_err _ (C _ _)).
rewrite /=; case: ifP => Sb; last first.
  rewrite -number_blob -(reason_size _ _ NmBlob); apply: extern_err.
  by rewrite (jq_ok _ (C _ _)) (@jq_err _ _ _ _ _ _ (ESize (2 ^ 17) (size b) NmBlob) (MkJst h 0 None)) // /jret /to_array Sb.
have C' k : jq (convert_byte_array err blob) (fun b0 => jq (jret (to_array err (2 ^ 17) NmBlob b0)) k) (MkJst h 0 None)
    = k b (MkJst h 0 None) :> jres (result jref (jerror err)).
  rewrite (jq_ok _ (C _ _)) (@jq_ok _ _ _ _ _ _ b (MkJst h 0 None)) // /jret /to_array.
  by rewrite Sb.
case E: (ra_compute api c b) => [[[cells proofs]|e]|].
- exists (Some (size h + (size cells).+2 + (size proofs).+2)), (h ++ cap_block (size h) cells proofs).
  split; last exact: cap_block_new.
  apply: extern_ok; rewrite C' (@jq_ok _ _ _ _ _ _ (cells, proofs) (MkJst h 0 None)); last by rewrite /library E.
  exact: cells_and_proofsE.
- by apply: (@extern_err _ _ _ _ _ (ECrypto e)); rewrite C' (@jq_err _ _ _ _ _ _ (ECrypto e) (MkJst h 0 None)) // /library E.
by apply: extern_panic; rewrite C' jq_panic // /library E.
Qed.

Theorem C52_commit h blob v : value_bytes h blob v ->
  let call := java_call (native_commit api jni_debug c blob) h in
  match v with
  | None => exists reason, throws call h "blobToKZGCommitment" reason
  | Some b =>
    if size b == 2 ^ 17 then
      match ra_blob_to_kzg_commitment api c b with
      | Ret (Ok commitment) => exists r h', call = Returns r h' /\ new_bytes h h' r commitment
      | Ret (Err e) => throws call h "blobToKZGCommitment" (ra_debug api e)
      | Panic => call = Crash
      end
    else throws call h "blobToKZGCommitment"
           (wrong_size "blob" (text "131072") (number (N.of_nat (size b))))
  end.
Proof.
move=> Hv; have C n p := @convert_byte_arrayE err h n p blob v Hv.
rewrite /native_commit /blob_to_kzg_commitment c_blob; case: v {Hv} C => [b|] C; last first.
  by eexists; apply: extern_err; rewrite (jq_err _ (C _ _)).
rewrite /=; case: ifP => Sb; last first.
  rewrite -number_blob -(reason_size _ _ NmBlob); apply: extern_err.
  by rewrite (jq_ok _ (C _ _)) (@jq_err _ _ _ _ _ _ (ESize (2 ^ 17) (size b) NmBlob) (MkJst h 0 None)) // /jret /to_array Sb.
have C' k : jq (convert_byte_array err blob) (fun b0 => jq (jret (to_array err (2 ^ 17) NmBlob b0)) k) (MkJst h 0 None)
    = k b (MkJst h 0 None) :> jres (result jref (jerror err)).
  rewrite (jq_ok _ (C _ _)) (@jq_ok _ _ _ _ _ _ b (MkJst h 0 None)) // /jret /to_array.
  by rewrite Sb.
case E: (ra_blob_to_kzg_commitment api c b) => [[com|e]|].
- exists (Some (size h)), (h ++ [:: OBytes com]); split; last first.
    exists [:: OBytes com] => //; exists (size h) => //; split=> //.
    by have := oget_cat_at h [:: OBytes com] 0; rewrite addn0.
  apply: (@extern_ok _ _ _ _ _ _ _ 1); rewrite C' (@jq_ok _ _ _ _ _ _ com (MkJst h 0 None)); last by rewrite /library E.
  by rewrite /byte_array_from_slice /new /= cats1.
- by apply: (@extern_err _ _ _ _ _ (ECrypto e)); rewrite C' (@jq_err _ _ _ _ _ _ (ECrypto e) (MkJst h 0 None)) // /library E.
by apply: extern_panic; rewrite C' jq_panic // /library E.
Qed.

Lemma null_flat v : has_null v -> flat_arrays v = None.
Proof. by case: v => [l|] //=; elim: l => [|[x|] l IH] //=; rewrite inE /= => /IH ->. Qed.
Lemma flat_no_null (l : seq (seq byte)) : flat_arrays (no_null l) = Some l.
Proof. exact: all_some_map. Qed.

Theorem C52_recover_null h ids cells vi vc : value_longs h ids vi -> value_arrays h cells vc ->
  vi = None \/ has_null vc ->
  exists reason, throws (java_call (native_recover api jni_debug c ids cells) h) h "recoverCellsAndKZGProofs" reason.
Proof.
move=> Hi Hc Hn; rewrite /native_recover /recover_cells_and_kzg_proofs.
have I := @jlongarrayE err h 0 None ids vi Hi.
case: vi Hi I Hn => [l|] Hi I Hn; last by eexists; apply: extern_err; exact: (jq_err _ I).
case: Hn => // /null_flat Hn.
have [n E _] := @arrays_in err h 0 None cells vc Hc; rewrite Hn in E.
by eexists; apply: extern_err; rewrite (jq_ok _ I) (jq_err _ E).
Qed.

Theorem C52_recover h ids cells ids_v cells_v :
  value_longs h ids (Some ids_v) -> value_arrays h cells (no_null cells_v) ->
  let call := java_call (native_recover api jni_debug c ids cells) h in
  if all (fun x => size x == 2048) cells_v then
    match ra_recover api c [seq Z.to_N (z mod 2 ^ 64) | z <- ids_v] cells_v with
    | Ret (Ok (rcells, rproofs)) => exists r h', call = Returns r h' /\ new_cap h h' r rcells rproofs
    | Ret (Err e) => throws call h "recoverCellsAndKZGProofs" (ra_debug api e)
    | Panic => call = Crash
    end
  else throws call h "recoverCellsAndKZGProofs"
         (wrong_size "cell" (text "2048") (number (N.of_nat (first_wrong 2048 cells_v)))).
Proof.
move=> Hi Hc; rewrite /native_recover /recover_cells_and_kzg_proofs c_cell.
have I := @jlongarrayE err h 0 None ids _ Hi.
have [n E _] := @arrays_in err h 0 None cells _ Hc; rewrite flat_no_null in E.
have C k : jq (jlongarray err ids) (fun i => jq (jobject_array_to_2d_byte_array err cells) (k i)) (MkJst h 0 None)
    = k [seq Z.to_N (z mod 2 ^ 64) | z <- ids_v] cells_v (MkJst h n None) :> jres (result jref (jerror err)).
  by rewrite (jq_ok _ I) (jq_ok _ E).
rewrite /=; case: ifP => Sc; last first.
  rewrite -[text "2048"]/(number (N.of_nat 2048)) -(reason_size _ _ NmCell); apply: extern_err.
  by rewrite C (jq_err _ (to_arrays_bad _ _ (negbT Sc))).
case R: (ra_recover api c _ cells_v) => [[[rcells rproofs]|e]|].
- exists (Some (size h + (size rcells).+2 + (size rproofs).+2)), (h ++ cap_block (size h) rcells rproofs).
  split; last exact: cap_block_new.
  apply: extern_ok; rewrite C (jq_ok _ (to_arrays_ok _ _ Sc)).
  rewrite (@jq_ok _ _ _ _ _ _ (rcells, rproofs) (MkJst h n None)); last by rewrite /library R.
  exact: cells_and_proofsE.
- apply: (@extern_err _ _ _ _ _ (ECrypto e)); rewrite C (jq_ok _ (to_arrays_ok _ _ Sc)).
  by rewrite (@jq_err _ _ _ _ _ _ (ECrypto e) (MkJst h n None)) // /library R.
by apply: extern_panic; rewrite C (jq_ok _ (to_arrays_ok _ _ Sc)) jq_panic // /library R.
Qed.

Theorem C52_verify_null h coms ids cells proofs vm vi vc vp :
  value_arrays h coms vm -> value_longs h ids vi -> value_arrays h cells vc -> value_arrays h proofs vp ->
  [\/ has_null vm, vi = None, has_null vc | has_null vp] ->
  exists reason, throws (java_call (native_verify api jni_debug c coms ids cells proofs) h) h
    "verifyCellKZGProofBatch" reason.
Proof.
move=> Hm Hi Hc Hp Hn; rewrite /native_verify /verify_cell_kzg_proof_batch.
have [n1 E1 _] := @arrays_in err h 0 None coms vm Hm.
have I := @jlongarrayE err h n1 None ids vi Hi.
have [n2 E2 _] := @arrays_in err h n1 None cells vc Hc.
have [n3 E3 _] := @arrays_in err h n2 None proofs vp Hp.
case F1: (flat_arrays vm) E1 => [m|] E1; last by eexists; apply: extern_err; exact: (jq_err _ E1).
case: vi Hi I Hn => [i|] Hi I Hn; last by eexists; apply: extern_err; rewrite (jq_ok _ E1); exact: (jq_err _ I).
case F2: (flat_arrays vc) E2 => [d|] E2; last first.
  by eexists; apply: extern_err; rewrite (jq_ok _ E1) (jq_ok _ I); exact: (jq_err _ E2).
case F3: (flat_arrays vp) E3 => [q|] E3; last first.
  by eexists; apply: extern_err; rewrite (jq_ok _ E1) (jq_ok _ I) (jq_ok _ E2); exact: (jq_err _ E3).
by case: Hn => // /null_flat; rewrite ?F1 ?F2 ?F3.
Qed.

Theorem C52_verify h coms ids cells proofs coms_v ids_v cells_v proofs_v :
  value_arrays h coms (no_null coms_v) -> value_longs h ids (Some ids_v) ->
  value_arrays h cells (no_null cells_v) -> value_arrays h proofs (no_null proofs_v) ->
  let call := java_call (native_verify api jni_debug c coms ids cells proofs) h in
  let wrong name n l := throws call h "verifyCellKZGProofBatch"
    (wrong_size name (number (N.of_nat n)) (number (N.of_nat (first_wrong n l)))) in
  if ~~ all (fun x => size x == 2048) cells_v then wrong "cell"%string 2048 cells_v
  else if ~~ all (fun x => size x == 48) coms_v then wrong "commitment"%string 48 coms_v
  else if ~~ all (fun x => size x == 48) proofs_v then wrong "proof"%string 48 proofs_v
  else match ra_verify api c coms_v [seq Z.to_N (z mod 2 ^ 64) | z <- ids_v] cells_v proofs_v with
       | Ret (Ok _) => call = Returns true h
       | Ret (Err e) =>
         if ra_invalid_proof api e then call = Returns false h
         else throws call h "verifyCellKZGProofBatch" (ra_debug api e)
       | Panic => call = Crash
       end.
Proof.
move=> Hm Hi Hc Hp; rewrite /native_verify /verify_cell_kzg_proof_batch c_cell /BYTES_PER_COMMITMENT.
have [n1 E1 _] := @arrays_in err h 0 None coms _ Hm.
have I := @jlongarrayE err h n1 None ids _ Hi.
have [n2 E2 _] := @arrays_in err h n1 None cells _ Hc.
have [n E3 _] := @arrays_in err h n2 None proofs _ Hp.
rewrite !flat_no_null in E1 E2 E3.
have C k : jq (jobject_array_to_2d_byte_array err coms) (fun m => jq (jlongarray err ids) (fun i =>
    jq (jobject_array_to_2d_byte_array err cells) (fun d => jq (jobject_array_to_2d_byte_array err proofs) (k m i d))))
    (MkJst h 0 None)
    = k coms_v [seq Z.to_N (z mod 2 ^ 64) | z <- ids_v] cells_v proofs_v (MkJst h n None) :> jres (result bool (jerror err)).
  by rewrite (jq_ok _ E1) (jq_ok _ I) (jq_ok _ E2) (jq_ok _ E3).
case Sc: (all _ cells_v); rewrite [~~ _]/=; last first.
  rewrite -(reason_size _ _ NmCell); apply: extern_err.
  by rewrite C (jq_err _ (to_arrays_bad _ _ (negbT Sc))).
case Sm: (all _ coms_v); rewrite [~~ _]/=; last first.
  rewrite -(reason_size _ _ NmCommitment); apply: extern_err.
  by rewrite C (jq_ok _ (to_arrays_ok _ _ Sc)) (jq_err _ (to_arrays_bad _ _ (negbT Sm))).
case Sp: (all _ proofs_v); rewrite [~~ _]/=; last first.
  rewrite -(reason_size _ _ NmProof); apply: extern_err.
  by rewrite C (jq_ok _ (to_arrays_ok _ _ Sc)) (jq_ok _ (to_arrays_ok _ _ Sm)) (jq_err _ (to_arrays_bad _ _ (negbT Sp))).
set lib := ra_verify _ _ _ _ _ _.
have D : jq (jobject_array_to_2d_byte_array err coms) (fun m => jq (jlongarray err ids) (fun i =>
    jq (jobject_array_to_2d_byte_array err cells) (fun d => jq (jobject_array_to_2d_byte_array err proofs) (fun q =>
    jq (to_arrays err 2048 NmCell d) (fun d => jq (to_arrays err 48 NmCommitment m) (fun m =>
    jq (to_arrays err 48 NmProof q) (fun q s => match ra_verify api c m i d q with
      | Ret (Ok _) => JRet (Ok true) s
      | Ret (Err e) => JRet (if ra_invalid_proof api e then Ok false else Err (ECrypto e)) s
      | Panic => JPanic
      end))))))) (MkJst h 0 None) =
    match lib with
      | Ret (Ok _) => JRet (Ok true) (MkJst h n None)
      | Ret (Err e) => JRet (if ra_invalid_proof api e then Ok false else Err (ECrypto e)) (MkJst h n None)
      | Panic => JPanic
      end.
  by rewrite C (jq_ok _ (to_arrays_ok _ _ Sc)) (jq_ok _ (to_arrays_ok _ _ Sm)) (jq_ok _ (to_arrays_ok _ _ Sp)).
move: lib D => lib D; case: lib D => [[u|e]|] D.
- exact: (extern_ok _ _ D).
- case: ifP D => _ D; first exact: (extern_ok _ _ D).
  by rewrite -/(reason api jni_debug (ECrypto e)); exact: (extern_err _ _ D).
exact: (extern_panic _ _ D).
Qed.

(** ** Local references: JNI promises room for 16. *)
Theorem C52_locals h blob b cells proofs : value_bytes h blob (Some b) -> size b = 2 ^ 17 ->
  ra_compute api c b = Ret (Ok (cells, proofs)) ->
  locals_of (native_compute api jni_debug c blob) h = Some (8 + size cells + size proofs).
Proof.
move=> Hv Sb E; apply: locals_ok; rewrite /compute_cells_and_kzg_proofs c_blob.
rewrite (jq_ok _ (@convert_byte_arrayE err h 0 None blob _ Hv)).
rewrite (@jq_ok _ _ _ _ _ _ b (MkJst h 0 None)); last by rewrite /jret /to_array Sb eqxx.
rewrite (@jq_ok _ _ _ _ _ _ (cells, proofs) (MkJst h 0 None)); last by rewrite /library E.
exact: cells_and_proofsE.
Qed.
Theorem C52_locals_verify_refuted limit : exists h coms ids cells proofs n,
  locals_of (native_verify api jni_debug c coms ids cells proofs) h = Some n /\ limit < n.
Proof.
pose h := [:: OBytes [::]; OArrays (nseq limit.+1 (Some 0)); OLongs [::]].
have Hv : value_arrays h (Some 1) (no_null (nseq limit.+1 [::])).
  exists 1, (nseq limit.+1 (Some 0)); split=> //.
  have V : value_bytes h (Some 0) (Some [::]) by exists 0.
  by move: h V => h0 V; elim: limit.+1 => [|k IH] //=.
have Hi : value_longs h (Some 2) (Some [::]) by exists 2.
have [n1 E1 H1] := @arrays_in err h 0 None _ _ Hv.
have I := @jlongarrayE err h n1 None _ _ Hi.
have [n2 E2 _] := @arrays_in err h n1 None _ _ Hv.
have [n3 E3 H3] := @arrays_in err h n2 None _ _ Hv.
rewrite !flat_no_null in E1 E2 E3 H1 H3.
exists h, (Some 1), (Some 2), (Some 1), (Some 1), n3; split; last first.
  by rewrite (H3 _ erefl) size_nseq; lia.
apply: locals_ok; rewrite /verify_cell_kzg_proof_batch c_cell.
rewrite (jq_ok _ E1) (jq_ok _ I) (jq_ok _ E2) (jq_ok _ E3).
exact: (jq_err _ (to_arrays_bad _ _ _)).
Qed.
End Calls.

(** ** C53 *)
Section Cap.
Variables (h : seq jobj).

(** equals compares contents, and only with an object of the class. *)
Theorem C53_equals r r' vc vp vc' vp' : value_cap h r vc vp -> value_cap h r' vc' vp' ->
  cap_equals h r r' <-> vc = vc' /\ vp = vp'.
Proof.
move=> [a [rc [rp [-> Ha Hc Hp]]]] [b [rc' [rp' [-> Hb Hc' Hp']]]].
rewrite /cap_equals Ha Hb (value_arrays_eq Hc Hc') (value_arrays_eq Hp Hp').
case: eqP => [[E]|_] /=; last by split=> [/andP[/eqP -> /eqP ->]|[-> ->]]; rewrite ?eqxx.
rewrite E Hb in Ha; case: Ha => E1 E2; rewrite E1 in Hc'; rewrite E2 in Hp'.
have := value_arrays_eq Hc Hc'; have := value_arrays_eq Hp Hp'.
by rewrite /deep_equals !eqxx => /esym/eqP -> /esym/eqP ->.
Qed.
Theorem C53_equals_other r vc vp r' : value_cap h r vc vp ->
  (if r' is Some b then exists2 o, oget h b = Some o & forall x y, o <> OCap x y else True) ->
  cap_equals h r r' = false.
Proof.
move=> [a [rc [rp [-> Ha _ _]]]]; case: r' => [b|] //= [o Hb Ho]; rewrite /cap_equals Ha Hb.
case: eqP => [[E]|_] /=; first by rewrite E Hb in Ha; case: Ha => /Ho.
by case: o Ho {Hb} => // x y /(_ x y).
Qed.

(** Equal contents, equal hash codes, also in another heap; a hash code is an int. *)
Theorem C53_hash h' rc rp rc' rp' vc vp : value_arrays h rc vc -> value_arrays h rp vp ->
  value_arrays h' rc' vc -> value_arrays h' rp' vp ->
  cap_hash_code h rc rp = cap_hash_code h' rc' rp' /\ (- 2 ^ 31 <= cap_hash_code h rc rp < 2 ^ 31)%Z.
Proof.
move=> H1 H2 H3 H4; rewrite /cap_hash_code (value_deep_hash H1 H3) (value_deep_hash H2 H4).
by split=> //; exact: to_int_range.
Qed.

(** toBytes *)
Theorem C53_to_bytes_null rc rp vc vp : value_arrays h rc vc -> value_arrays h rp vp ->
  has_null vc \/ has_null vp -> cap_to_bytes h rc rp = Err NullPointerException.
Proof.
rewrite /cap_to_bytes => /arrays_atE Hc /arrays_atE Hp Hn.
case: vc Hc Hn => [lc|-> _] // [cells -> Vc] Hn /=.
case: (sum_lengths_cases 0 Vc) => [->|[z Ez]] //; rewrite Ez /=.
case: Hn => [Hn|Hn]; first by have := sum_lengths_null 0 Vc Hn; rewrite Ez.
by case: vp Hp Hn => [lp|->] // [proofs -> Vp] Hn /=; rewrite (sum_lengths_null 0 Vp Hn).
Qed.

Theorem C53_to_bytes rc rp cells proofs :
  value_arrays h rc (no_null cells) -> value_arrays h rp (no_null proofs) ->
  let all_bytes := flatten cells ++ flatten proofs in
  if (Z.of_nat (size all_bytes) <? 2 ^ 31)%Z then cap_to_bytes h rc rp = Ok all_bytes
  else exists2 e, cap_to_bytes h rc rp = Err e & e = IllegalArgumentException \/ e = BufferOverflowException.
Proof.
rewrite /cap_to_bytes => /arrays_atE[lc -> Vc] /arrays_atE[lp -> Vp] /=.
rewrite (sum_lengthsE Vc) // (sum_lengthsE Vp) //= to_int_add to_int_add' size_cat Nat2Z.inj_add.
set c := Z.of_nat (size (flatten cells)); set p := Z.of_nat (size (flatten proofs)).
have Hc : (0 <= c)%Z by lia.
have Hp : (0 <= p)%Z by lia.
case: (Z.ltb_spec (c + p) (2 ^ 31)) => Ht.
  rewrite to_int_id; last by lia.
  case: Z.ltb_spec => H; first by lia.
  rewrite (put_all_fits Vc) /=; last by rewrite -/c; lia.
  rewrite (put_all_fits Vp) /=; last by rewrite -/c -/p; lia.
  have -> : Z.to_nat (c + p) - size (flatten cells ++ flatten proofs) = 0 by rewrite size_cat /c /p; lia.
  by rewrite cats0.
set t := to_int (c + p); have Hlt : (t < c + p)%Z by have := to_int_range (c + p); rewrite -/t; lia.
case: Z.ltb_spec => H; first by exists IllegalArgumentException => //; left.
exists BufferOverflowException; last by right.
case: (Z.ltb_spec t c) => Htc; first by rewrite (put_all_over Vc).
rewrite (put_all_fits Vc) //= (put_all_over Vp) //; rewrite -/c -/p; lia.
Qed.
End Cap.

(** Two CellsAndProofs with the lengths that the library gives: the bytes tell them apart. *)
Definition cap_lengths (cells proofs : seq (seq byte)) : Prop :=
  [/\ size cells = 128, size proofs = 128, all (fun x => size x == 2048) cells & all (fun x => size x == 48) proofs].
Lemma flatten_inj n (l l' : seq (seq byte)) x x' : all (fun x => size x == n) l -> all (fun x => size x == n) l' ->
  size l = size l' -> flatten l ++ x = flatten l' ++ x' -> l = l' /\ x = x'.
Proof.
elim: l l' => [|b l IH] [|b' l'] //= /andP[/eqP Sb Hl] /andP[/eqP Sb' Hl'] [Sz].
rewrite -!catA => /eqP; rewrite eqseq_cat ?Sb ?Sb' // => /andP[/eqP -> /eqP E].
by have [-> ->] := IH _ Hl Hl' Sz E.
Qed.
Lemma size_flatten_all n (l : seq (seq byte)) : all (fun x => size x == n) l -> size (flatten l) = size l * n.
Proof. by elim: l => [|x l IH] //= /andP[/eqP Sx /IH E]; rewrite size_cat Sx E. Qed.
Theorem C53_to_bytes_library h h' rc rp rc' rp' cells proofs cells' proofs' :
  value_arrays h rc (no_null cells) -> value_arrays h rp (no_null proofs) -> cap_lengths cells proofs ->
  value_arrays h' rc' (no_null cells') -> value_arrays h' rp' (no_null proofs') -> cap_lengths cells' proofs' ->
  exists bytes bytes',
    [/\ cap_to_bytes h rc rp = Ok bytes, cap_to_bytes h' rc' rp' = Ok bytes', N.of_nat (size bytes) = 268288%num &
        bytes = bytes' -> cells = cells' /\ proofs = proofs'].
Proof.
move=> H1 H2 [S1 S2 S3 S4] H1' H2' [S1' S2' S3' S4'].
have T := C53_to_bytes H1 H2; have T' := C53_to_bytes H1' H2'; rewrite /= in T T'.
have Sz : N.of_nat (size (flatten cells ++ flatten proofs)) = 268288%num.
  by rewrite size_cat (size_flatten_all S3) (size_flatten_all S4) S1 S2; lia.
have Sz' : N.of_nat (size (flatten cells' ++ flatten proofs')) = 268288%num.
  by rewrite size_cat (size_flatten_all S3') (size_flatten_all S4') S1' S2'; lia.
rewrite ifT in T; last by apply/Z.ltb_lt; rewrite -nat_N_Z Sz.
rewrite ifT in T'; last by apply/Z.ltb_lt; rewrite -nat_N_Z Sz'.
eexists; eexists; split; [exact: T|exact: T'|exact: Sz|].
move=> E; have [|-> E'] := flatten_inj S3 S3' _ E; first by rewrite S1 S1'.
by have [] := @flatten_inj 48 proofs proofs' [::] [::] S4 S4'; rewrite ?cats0 ?S2 ?S2'.
Qed.

(** Claim: different contents have different hash codes; and different bytes. Both are false. *)
Theorem C53_hash_refuted : exists h rc rp rc' rp' vc vp vc' vp',
  [/\ value_arrays h rc vc /\ value_arrays h rp vp, value_arrays h rc' vc' /\ value_arrays h rp' vp',
      (vc, vp) <> (vc', vp') & cap_hash_code h rc rp = cap_hash_code h rc' rp'].
Proof.
exists [:: OBytes [:: "000"%byte; "031"%byte]; OBytes [:: "001"%byte; "000"%byte];
  OArrays [:: Some 0]; OArrays [:: Some 1]; OArrays [::]], (Some 2), (Some 4), (Some 3), (Some 4).
exists (Some [:: Some [:: "000"%byte; "031"%byte]]), (Some [::]), (Some [:: Some [:: "001"%byte; "000"%byte]]), (Some [::]).
split=> //; split.
- by exists 2, [:: Some 0]; do 2!split=> //; exists 0.
- by exists 4, [::].
- by exists 3, [:: Some 1]; do 2!split=> //; exists 1.
by exists 4, [::].
Qed.
Theorem C53_to_bytes_refuted : exists h rc rp rc' rp' vc vp vc' vp' bytes,
  [/\ value_arrays h rc vc /\ value_arrays h rp vp, value_arrays h rc' vc' /\ value_arrays h rp' vp',
      (vc, vp) <> (vc', vp') & cap_to_bytes h rc rp = Ok bytes /\ cap_to_bytes h rc' rp' = Ok bytes].
Proof.
exists [:: OBytes [:: "001"%byte]; OArrays [:: Some 0]; OArrays [::]], (Some 1), (Some 2), (Some 2), (Some 1).
exists (Some [:: Some [:: "001"%byte]]), (Some [::]), (Some [::]), (Some [:: Some [:: "001"%byte]]), [:: "001"%byte].
have V1 : value_arrays [:: OBytes [:: "001"%byte]; OArrays [:: Some 0]; OArrays [::]] (Some 1) (Some [:: Some [:: "001"%byte]]).
  by exists 1, [:: Some 0]; do 2!split=> //; exists 0.
have V2 : value_arrays [:: OBytes [:: "001"%byte]; OArrays [:: Some 0]; OArrays [::]] (Some 2) (Some [::]).
  by exists 2, [::].
by split.
Qed.

(** ** With the library of Eip7594.v *)
Definition cell_number (z : Z) : bool := (0 <=? z)%Z && (z <=? 127)%Z.

Lemma cell_numbers ids : all cell_number ids ->
  [seq Z.to_N (z mod 2 ^ 64) | z <- ids] = [seq Z.to_N z | z <- ids] /\
  all (fun i => (i <? 128)%num) [seq Z.to_N z | z <- ids].
Proof.
elim: ids => [|z ids IH] //= /andP[/andP[/Z.leb_le H1 /Z.leb_le H2] /IH[-> ->]].
rewrite Z.mod_small; last by lia.
by split=> //; rewrite andbT; apply/N.ltb_lt; lia.
Qed.

Section Library.
Variables (G1 G2 GT : lmodType Fr) (env : das_env G1 G2 GT).
Hypothesis std : env_std env.
Variables (g1s : seq G1) (g2s : seq G2) (ctx : das_context G1 G2).
Hypothesis S1 : size g1s = (2 ^ 12)%N.
Hypothesis S2 : size g2s = 65%N.
Hypothesis Hctx : das_context_new fr_params eip7594_consts g1s g2s PrecompNo = Ret ctx.
Variables (new : bool -> N -> outcome (das_context G1 G2)) (debug : error -> seq byte).
Variable (jni_debug : jni_error -> seq byte).
Local Notation api := (eip7594_api env new debug).

(** What recoverCellsAndKZGProofs returns for any half of the cells that computeCellsAndKZGProofs
    returned is another object, equal to the first in both directions. *)
Theorem C52_recover_equals h blob b r h1 : value_bytes h blob (Some b) ->
  java_call (native_compute api jni_debug ctx blob) h = Returns r h1 ->
  exists cells proofs, value_cap h1 r (no_null cells) (no_null proofs) /\
    forall h2 ids rcells ids_v, value_cap h2 r (no_null cells) (no_null proofs) ->
      value_longs h2 ids (Some ids_v) -> all cell_number ids_v -> uniq [seq Z.to_N z | z <- ids_v] ->
      64 <= size ids_v ->
      value_arrays h2 rcells (no_null [seq nth [::] cells (Z.to_nat z) | z <- ids_v]) ->
      exists r' h3, [/\ java_call (native_recover api jni_debug ctx ids rcells) h2 = Returns r' h3,
        r' <> r, cap_equals h3 r r' & cap_equals h3 r' r].
Proof.
move=> Hv Hr; have := C52_compute api jni_debug ctx Hv; cbv zeta; rewrite {}Hr.
case: eqP => [Sb|_]; last by rewrite /throws.
case E: (ra_compute api ctx b) => [[[cells proofs]|e]|] //.
move=> [r0 [h' [[<- <-] /new_cap_value V]]]; exists cells, proofs; split=> //.
move=> h2 ids rcells ids_v V2 Hi Ha Hu Hs Hc.
have [Em Hr] := cell_numbers Ha.
have R := C06_recover_any_half std S1 S2 Hctx Sb E Hu Hr.
rewrite size_map in R; move/(_ Hs): R => R.
have En : [seq nth [::] cells (N.to_nat i) | i <- [seq Z.to_N z | z <- ids_v]] = [seq nth [::] cells (Z.to_nat z) | z <- ids_v].
  by rewrite -map_comp; apply: eq_map => z /=; rewrite Z_N_nat.
rewrite En in R.
have [Sc Sh _] := C01_systematic std S1 S2 Hctx Sb E.
have Sz : all (fun x => size x == 2048) [seq nth [::] cells (Z.to_nat z) | z <- ids_v].
  rewrite all_map; move: Ha; apply: sub_all => z /andP[/Z.leb_le H1 /Z.leb_le H2] /=.
  by apply: (all_nthP [::] Sh); rewrite Sc; lia.
have := C52_recover api jni_debug ctx Hi Hc; cbv zeta; rewrite Sz Em.
rewrite -[ra_recover api _ _ _]/(Eip7594.recover_cells_and_kzg_proofs env eip7594_consts ctx _ _) R.
move=> [r' [h3 [Ej N]]]; exists r', h3; have V3 := new_cap_value N.
have [fr Ef] := new_cap_cat N; have V2' : value_cap h3 r (no_null cells) (no_null proofs).
  by rewrite Ef; exact: value_cap_cat.
split=> //; [|exact/(C53_equals V2' V3)|exact/(C53_equals V3 V2')].
move=> Er; case: N => f [a [ac [ap [rc [rp [_ [Ea _ _ _] _ _ /= /andP[Hge _]]]]]]].
case: V2 => a' [? [? [Ea' Ho _ _]]]; have Hlt := oget_size Ho; move: Ea; rewrite Er Ea' => -[Eaa].
by rewrite -Eaa leqNgt Hlt in Hge.
Qed.

(** verifyCellKZGProofBatch returns true for tuples made by the library, and changes nothing. *)
Theorem C52_honest_true (tau : Fr) (G : G1) (H : G2) h coms ids cells proofs coms_v ids_v cells_v proofs_v :
  g1s = srs_of tau G (2 ^ 12) -> g2s = srs_of tau H 65 ->
  value_arrays h coms (no_null coms_v) -> value_longs h ids (Some ids_v) ->
  value_arrays h cells (no_null cells_v) -> value_arrays h proofs (no_null proofs_v) ->
  size ids_v = size coms_v -> size cells_v = size coms_v -> size proofs_v = size coms_v ->
  all cell_number ids_v ->
  (forall t, t < size coms_v -> honest env ctx (nth [::] coms_v t) (Z.to_N (nth 0%Z ids_v t))
     (nth [::] cells_v t) (nth [::] proofs_v t)) ->
  java_call (native_verify api jni_debug ctx coms ids cells proofs) h = Returns true h.
Proof.
move=> E1 E2 Hm Hi Hc Hp Si Sc Sp Ha Hh; have [Em Hr] := cell_numbers Ha.
have V := @C10_honest_verifies _ _ _ _ std _ _ _ S1 S2 Hctx tau G H coms_v [seq Z.to_N z | z <- ids_v] cells_v proofs_v E1 E2.
rewrite size_map in V; have {}V := V Si Sc Sp.
have T : [/\ all (fun x => size x == 48) coms_v, all (fun x => size x == 2048) cells_v & all (fun x => size x == 48) proofs_v].
  have T := C37_eip7594_typed std S1 S2 Hctx new debug.
  have X t : t < size coms_v ->
      [/\ size (nth [::] coms_v t) == 48, size (nth [::] cells_v t) == 2048 & size (nth [::] proofs_v t) == 48].
    move=> /Hh[b [bc [bp [[Sb Hk Ec Ep] [-> ->]]]]].
    have [Z1 Z2 Z3 Z4] := at_compute T Sb Ep.
    rewrite (at_commitment T Sb Ec); split=> //; first by apply: (all_nthP [::] Z3); rewrite Z1; lia.
    by apply: (all_nthP [::] Z4); rewrite Z2; lia.
  by split; apply/(all_nthP [::]) => t; rewrite ?Sc ?Sp => /X[].
case: T => T1 T2 T3.
have := C52_verify api jni_debug ctx Hm Hi Hc Hp; cbv zeta; rewrite T1 T2 T3 Em.
rewrite -[ra_verify api _ _ _ _ _]/(Eip7594.verify_cell_kzg_proof_batch env eip7594_consts ctx _ _ _ _) V //.
by move=> t Ht; rewrite (nth_map 0%Z) ?Si //; exact: Hh.
Qed.

(** Claim: a native method makes no more than the 16 local references that JNI promises. It is false
    for every blob that is accepted. *)
Theorem C52_locals_refuted h blob b out : value_bytes h blob (Some b) -> size b = 2 ^ 17 ->
  Eip7594.compute_cells_and_kzg_proofs env eip7594_consts ctx b = Ret (Ok out) ->
  exists2 n, locals_of (native_compute api jni_debug ctx blob) h = Some n & n = 264 /\ 16 < n.
Proof.
case: out => cells proofs Hv Sb E; have T := C37_eip7594_typed std S1 S2 Hctx new debug.
have [Z1 Z2 _ _] := at_compute T Sb E.
by eexists; [exact: (@C52_locals _ _ api jni_debug ctx h blob b cells proofs Hv Sb E)|rewrite Z1 Z2].
Qed.
End Library.
