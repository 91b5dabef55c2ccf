(** Lemmas about the C# methods of CsApi.v. *)

From Coq Require Import NArith Init.Byte.
From mathcomp Require Import ssreflect ssrfun ssrbool eqtype ssrnat seq.
From mathcomp Require Import zify_ssreflect.
From Verif Require Import Base Bytes Eip7594 CMem CApi SpecC CProofs CCallProofs PropC CsApi SpecCs.

Set Implicit Arguments.
Unset Strict Implicit.
Unset Printing Implicit Defensive.

Section Ext.
Variable ctx : Type.
Implicit Types (m : mem ctx).

(** m' is m with arrays of the caller added. *)
Definition managed (x : option (block ctx)) : bool := if x is Some blk then caller_block blk else true.
Definition ext m m' : Prop := exists2 e, m' = m ++ e & all managed e.

Lemma ext_refl m : ext m m. Proof. by exists [::]; rewrite ?cats0. Qed.
Lemma ext_trans m1 m2 m3 : ext m1 m2 -> ext m2 m3 -> ext m1 m3.
Proof. by move=> [e1 -> H1] [e2 -> H2]; exists (e1 ++ e2); rewrite ?catA // all_cat H1. Qed.
Lemma ext_rcons m x : managed x -> ext m (rcons m x).
Proof. by move=> H; exists [:: x]; rewrite ?cats1 //= H. Qed.
Lemma ext_size m m' : ext m m' -> size m <= size m'.
Proof. by case=> e -> _; rewrite size_cat leq_addr. Qed.

Lemma ext_block m m' b blk : ext m m' -> is_block m b blk -> is_block m' b blk.
Proof. by case=> e -> _ [Hb E]; rewrite /is_block size_cat nth_cat Hb E ltn_addr. Qed.
Lemma ext_native m m' : ext m m' -> same_native m m'.
Proof.
move=> H b blk Hc; split; last exact: ext_block.
case: H => e -> He [Hb]; rewrite nth_cat; case: ifP => Hlt E //.
have Hi : b - size m < size e by move: Hb; rewrite size_cat; lia.
by have := all_nthP None He _ Hi; rewrite E /= (negbTE Hc).
Qed.

Lemma ext_bytes m m' p s : ext m m' -> bytes_at m p s -> bytes_at m' p s.
Proof.
move=> H [->|[b [off [t [-> Hb Hs Hn]]]]]; [by left|right].
by exists b, off, t; split=> //; exact: ext_block Hb.
Qed.
Lemma ext_ptrs m m' p s : ext m m' -> ptrs_at m p s -> ptrs_at m' p s.
Proof.
move=> H [->|[b [off [t [-> Hb Hs Hn]]]]]; [by left|right].
by exists b, off, t; split=> //; exact: ext_block Hb.
Qed.
Lemma ext_u64s m m' p s : ext m m' -> u64s_at m p s -> u64s_at m' p s.
Proof.
move=> H [->|[b [off [t [-> Hb Hs Hn]]]]]; [by left|right].
by exists b, off, t; split=> //; exact: ext_block Hb.
Qed.
Lemma ext_ctx m m' p c : ext m m' -> ctx_at m p c -> ctx_at m' p c.
Proof. by move=> H [b -> Hb]; exists b => //; exact: ext_block Hb. Qed.
Lemma ext_writable m m' p n : ext m m' -> writable m p n -> writable m' p n.
Proof. by move=> H [d [Sd Hd]]; exists d; split=> //; exact: ext_bytes Hd. Qed.

Lemma block_bytes m b s : is_block m b (BBytes _ s) -> bytes_at m (Addr b 0) s.
Proof. by move=> H; right; exists b, 0, s. Qed.
Lemma block_ptrs m b s : is_block m b (BPtrs _ s) -> ptrs_at m (Addr b 0) s.
Proof. by move=> H; right; exists b, 0, s. Qed.
Lemma block_u64s m b s : is_block m b (BU64s _ s) -> u64s_at m (Addr b 0) s.
Proof. by move=> H; right; exists b, 0, s. Qed.
Lemma rcons_block m blk : is_block (rcons m (Some blk)) (size m) blk.
Proof. by rewrite /is_block size_rcons nth_rcons ltnn eqxx. Qed.

Lemma fixed_u64s m b s : is_block m b (BU64s _ s) -> u64s_at m (fixed_ptr (size s) (Addr b 0)) s.
Proof.
by rewrite /fixed_ptr size_eq0; case: eqP => [-> _|_]; [left|exact: block_u64s].
Qed.

Lemma native_refl m : same_native m m. Proof. by []. Qed.
Lemma native_trans m1 m2 m3 : same_native m1 m2 -> same_native m2 m3 -> same_native m1 m3.
Proof. by move=> H1 H2 b blk Hc; rewrite H2 // H1. Qed.
Lemma native_ctx m m' p c : same_native m m' -> ctx_at m p c -> ctx_at m' p c.
Proof. by move=> H [b -> Hb]; exists b => //; apply/H. Qed.
Lemma keeps_native m m' : keeps m m' -> same_native m m'.
Proof. by case. Qed.

(** ** Allocation *)
Definition addrs (b n : nat) : seq ptr := [seq Addr i 0 | i <- iota b n].
Lemma size_addrs b n : size (addrs b n) = n. Proof. by rewrite size_map size_iota. Qed.
Lemma nth_addrs b n i : i < n -> nth Null (addrs b n) i = Addr (b + i) 0.
Proof. by move=> H; rewrite (nth_map 0) ?size_iota // nth_iota. Qed.

Lemma cmapM_new (A : Type) (f : A -> seq byte) (l : seq A) m :
  cmapM (fun x => @new_array ctx (f x)) l m =
  CRet (addrs (size m) (size l), m ++ [seq Some (BBytes _ (f x)) | x <- l]).
Proof.
elim: l m => [|x l IH] m; first by rewrite cats0.
by rewrite /= /cbind /new_array /alloc /= IH size_rcons cat_rcons.
Qed.

Lemma all_managed (l : seq (seq byte)) : all managed [seq Some (BBytes ctx x) | x <- l].
Proof. by rewrite all_map; apply/allP. Qed.

Lemma jagged_at l m : exists2 m', @jagged_array ctx l m = CRet (addrs (size m) (size l), m') &
  [/\ ext m m', size m' = size m + size l &
      forall i, i < size l -> bytes_at m' (nth Null (addrs (size m) (size l)) i) (nth [::] l i)].
Proof.
rewrite /jagged_array (cmapM_new id); eexists; first exact: erefl.
split; [by exists [seq Some (BBytes _ x) | x <- l]; rewrite ?all_managed|by rewrite size_cat size_map|].
move=> i Hi; rewrite nth_addrs //; apply: block_bytes; split; first by rewrite size_cat size_map ltn_add2l.
by rewrite nth_cat ltnNge leq_addr /= addKn (nth_map [::]).
Qed.

Lemma init_at n k m : exists2 m', @initialize_jagged_array ctx n k m = CRet (addrs (size m) n, m') &
  [/\ ext m m', size m' = size m + n & forall i, i < n -> writable m' (Addr (size m + i) 0) k].
Proof.
rewrite /initialize_jagged_array (cmapM_new (fun _ => nseq k _)) size_iota; eexists; first exact: erefl.
split; [|by rewrite size_cat size_map size_iota|].
  by eexists; [exact: erefl|rewrite all_map; apply/allP].
move=> i Hi; exists (nseq k "000"%byte); rewrite size_nseq; split=> //; apply: block_bytes; split.
  by rewrite size_cat size_map size_iota ltn_add2l.
by rewrite nth_cat ltnNge leq_addr /= addKn (nth_map 0) ?size_iota.
Qed.

Lemma pointer_array_at ps m : exists2 p, @pointer_array ctx ps m = CRet (p, rcons m (Some (BPtrs _ ps))) &
  ptrs_at (rcons m (Some (BPtrs _ ps))) p ps /\ p = fixed_ptr (size ps) (Addr (size m) 0).
Proof.
rewrite /pointer_array /cbind /alloc; eexists; first exact: erefl.
split=> //; rewrite /fixed_ptr size_eq0; case: eqP => [->|_]; first by left.
exact: block_ptrs (rcons_block _ _).
Qed.

Lemma fixed_id n l : 0 < n -> [seq fixed_ptr n p | p <- l] = l.
Proof. by case: n => // n _; rewrite /fixed_ptr /= map_id. Qed.

Lemma addrs_writable m m' b n k : ext m m' -> (forall i, i < n -> writable m (Addr (b + i) 0) k) ->
  forall i, i < n -> writable m' (nth Null (addrs b n) i) k.
Proof. by move=> X W i Hi; rewrite nth_addrs //; exact: ext_writable X (W i Hi). Qed.

Lemma disjoint_addrs b n b' n' k k' : b + n <= b' ->
  disjoint_regions ([seq (q, k) | q <- addrs b n] ++ [seq (q, k') | q <- addrs b' n']).
Proof.
move=> H i j blk off /andP[Hij]; rewrite size_cat !size_map !size_iota => Hj.
have E t : t < n + n' -> (nth (Null, 0) ([seq (q, k) | q <- addrs b n] ++ [seq (q, k') | q <- addrs b' n']) t).1 =
    Addr (if t < n then b + t else b' + (t - n)) 0.
  move=> Ht; rewrite nth_cat size_map size_addrs; case: ifP => Hlt.
    by rewrite (nth_map Null) ?size_addrs //= nth_addrs.
  by rewrite (nth_map Null) ?size_addrs /= ?nth_addrs //; lia.
rewrite /in_region E ?E //; last exact: ltn_trans Hj.
case/andP=> /eqP -> _; rewrite negb_and; apply/orP; left; apply/eqP.
by case: ifP; case: ifP; lia.
Qed.

Lemma read_arrays m n ps (data : seq (seq byte)) : 0 < n -> size ps = size data ->
  all (fun x => size x == n) data ->
  (forall i, i < size data -> bytes_at m (nth Null ps i) (nth [::] data i)) ->
  cmapM (@read_array ctx n) ps m = CRet (data, m).
Proof.
move=> Hn; elim: ps data => [|p ps IH] [|d data] //= [S] /andP[/eqP Sd Ha] H.
have Hd : d <> [::] by move=> E; move: Sd Hn; rewrite E => <-.
rewrite /cbind /read_array /cread -{1}Sd (load_bytes_at (H 0 isT) Hd) /=.
by rewrite (IH data S Ha) // => i Hi; exact: (H i.+1).
Qed.
End Ext.

Section Checked.
Variables (ctx err : Type) (api : rust_api ctx err).
Implicit Types (m : mem ctx).

Lemma checked_ok (A : Type) (k : cM ctx A) m a m' : k m = CRet (a, m') ->
  checked (MkCResult StOk Null) k m = CRet (CsReturn a, m').
Proof. by move=> E; rewrite /checked /throw_on_error /= /cbind /cret /= E. Qed.

Lemma set_last m x y : set_nth None (rcons m (x : option (block ctx))) (size m) y = rcons m y.
Proof. by elim: m => [|z m IH] //=; rewrite IH. Qed.

Lemma checked_err (A : Type) (k : cM ctx A) m s :
  checked (MkCResult StErr (Addr (size m) 0)) k (rcons m (Some (BMsg _ s))) =
  CRet (CsThrow (FromBindings s), rcons m None).
Proof.
have E : live_block (rcons m (Some (BMsg _ s))) (size m) = Some (BMsg _ s).
  by apply/live_blockP; exact: rcons_block.
rewrite /checked /throw_on_error /is_null /= /cbind /cread /load_msg E /=.
by rewrite /eth_kzg_free_error_message /= /cwrite /release_msg E set_last.
Qed.

(** What a method does, and that it leaves contexts and messages as they were. *)
Definition does (A : Type) (x : cM ctx (cs_out A)) (f : A -> cs_value) m (e : cs_effect) : Prop :=
  match e with
  | EReturn v => exists a m', [/\ x m = CRet (CsReturn a, m'), f a = v & same_native m m']
  | EThrow ex => exists m', x m = CRet (CsThrow ex, m') /\ same_native m m'
  | EAbort => x m = CAbort
  end.

Arguments does : simpl never.

Lemma does_at (A : Type) (x y : cM ctx (cs_out A)) f m m1 e : x m = y m1 -> same_native m m1 ->
  does y f m1 e -> does x f m e.
Proof.
move=> E H; case: e => [v|ex|]; rewrite /does E //.
  by move=> [a [m' [E1 E2 E3]]]; exists a, m'; split=> //; exact: native_trans E3.
by move=> [m' [E1 E2]]; exists m'; split=> //; exact: native_trans E2.
Qed.

(** The last part of a method: the native call and what follows. *)
Lemma does_err (A : Type) (call : cM ctx c_result) (k : cM ctx A) f m s :
  call m = CRet (MkCResult StErr (Addr (size m) 0), rcons m (Some (BMsg _ s))) ->
  does (clet r := call in checked r k) f m (EThrow (FromBindings s)).
Proof.
move=> E; exists (rcons m None); rewrite /cbind E checked_err; split=> //.
exact: ext_native (ext_rcons _ _).
Qed.
Lemma does_ok (A : Type) (call : cM ctx c_result) (k : cM ctx A) f m m' a :
  call m = CRet (MkCResult StOk Null, m') -> k m' = CRet (a, m') -> same_native m m' ->
  does (clet r := call in checked r k) f m (EReturn (f a)).
Proof. by move=> E Ek H; exists a, m'; rewrite /cbind E (checked_ok Ek). Qed.
Lemma does_abort (A : Type) (call : cM ctx c_result) (k : cM ctx A) f m :
  call m = CAbort -> does (clet r := call in checked r k) f m EAbort.
Proof. by move=> E; rewrite /does /cbind E. Qed.

(** ** Lengths *)
Lemma first_bad_lengthP n k l :
  match first_bad_length n k l with
  | Some i => exists2 j, i = k + j & first_wrong n l j
  | None => all_right n l
  end.
Proof.
elim: l k => [|x l IH] k //=; case: eqP => [Sx|Hx]; rewrite /=.
  have := IH k.+1; case: (first_bad_length _ _ _) => [i [j -> [H1 [H2 H3]]]|H].
    exists j.+1; first by rewrite addSnnS.
    by split=> //; split=> // -[|t] //= Ht; exact: H3.
  by case.
by exists 0; rewrite ?addn0.
Qed.
Lemma wrong_not_right n l i : first_wrong n l i -> all_right n l -> False.
Proof. by move=> [Hi [H _]] /(_ i Hi). Qed.
Lemma wrong_unique n l i j : first_wrong n l i -> first_wrong n l j -> i = j.
Proof.
move=> [Hi [Wi Ri]] [Hj [Wj Rj]]; case: (ltngtP i j) => // H.
  by case: Wi; exact: Rj.
by case: Wj; exact: Ri.
Qed.
Lemma all_rightP n l : reflect (all_right n l) (all (fun x => size x == n) l).
Proof.
apply: (iffP (all_nthP [::])) => H i Hi; first exact/eqP/H.
exact/eqP/H.
Qed.
Lemma check_bad (A : Type) what n l (k : cM ctx (cs_out A)) i : first_wrong n l i ->
  check_lengths what n l k = cret (CsThrow (InvalidLength what i)).
Proof.
move=> W; rewrite /check_lengths; have := first_bad_lengthP n 0 l.
case: first_bad_length => [j [j' ->]|]; last by move/(wrong_not_right W).
by move/(wrong_unique W) ->.
Qed.
Lemma check_good (A : Type) what n l (k : cM ctx (cs_out A)) : all_right n l ->
  check_lengths what n l k = k.
Proof.
move=> H; rewrite /check_lengths; have := first_bad_lengthP n 0 l.
by case: first_bad_length => [j [j' _ /wrong_not_right]|]; [move/(_ H)|].
Qed.
Lemma does_throw (A : Type) f m e : does (cret (CsThrow e) : cM ctx (cs_out A)) f m (EThrow e).
Proof. by exists m. Qed.

End Checked.
Arguments does : simpl never.

Section Methods.
Variables (ctx err : Type) (api : rust_api ctx err).
Hypothesis nul : no_nul api.
Implicit Types (m : mem ctx).

Lemma cbindE (A B : Type) (e : cM ctx A) (k : A -> cM ctx B) m a m' : e m = CRet (a, m') ->
  cbind e k m = k a m'.
Proof. by rewrite /cbind => ->. Qed.
Lemma if_neq (A : Type) (x y : A) (i n : nat) : i = n -> (if i != n then x else y) = y.
Proof. by move=> ->; rewrite eqxx. Qed.
Lemma fixed_pos n p : 0 < n -> fixed_ptr n p = p. Proof. by case: n. Qed.
Lemma blob_pos : 0 < 2 ^ 17. Proof. by rewrite expn_gt0. Qed.

(** *** BlobToKzgCommitment, with any collector *)
Section Blob.
Variable gc : seq ptr -> mem ctx -> mem ctx.
Hypothesis Hgc : collector gc.

Lemma gc_native pinned m : same_native m (gc pinned m).
Proof.
have [H1 H2] := Hgc pinned m; move=> b blk Hc; split=> H; first exact: (H2 _ _ H Hc).
by apply: H1 => //; left.
Qed.
Lemma gc_pinned pinned m b blk : is_block m b blk -> Addr b 0 \in pinned -> is_block (gc pinned m) b blk.
Proof. by have [H1 _] := Hgc pinned m => H Hp; apply: H1 => //; right. Qed.

(** Memory at the native call. *)
Lemma blob_prepared p blob m : size blob = 2 ^ 17 ->
  exists m1 b1 b2, [/\ same_native m m1, is_block m1 b1 (BBytes _ blob),
    is_block m1 b2 (BBytes _ (nseq 48 "000"%byte)) &
    cs_blob_to_kzg_commitment api gc p blob m =
    (clet r := eth_kzg_blob_to_kzg_commitment api p (Addr b1 0) (Addr b2 0) in
     checked r (read_array 48 (Addr b2 0))) m1].
Proof.
move=> Sb; rewrite /cs_blob_to_kzg_commitment (if_neq _ _ Sb).
set m0 := rcons (rcons m (Some (BBytes _ blob))) (Some (BBytes _ (nseq 48 "000"%byte))).
pose b1 := size m; pose b2 := (size m).+1.
exists (gc [:: Addr b1 0; Addr b2 0] m0), b1, b2; split.
- apply: native_trans (gc_native _ _); apply: ext_native.
  by apply: ext_trans (ext_rcons _ (isT : managed (Some (BBytes _ blob)))) (ext_rcons _ _).
- apply: gc_pinned; last by rewrite inE eqxx.
  exact: ext_block (ext_rcons _ (isT : managed (Some (BBytes _ _)))) (rcons_block _ _).
- apply: gc_pinned; last by rewrite !inE eqxx orbT.
  by rewrite /b2 -(size_rcons m (Some (BBytes _ blob))); exact: rcons_block.
rewrite (cbindE _ (_ : new_array blob m = CRet (Addr b1 0, rcons m (Some (BBytes _ blob))))) //.
rewrite (cbindE _ (_ : new_array _ _ = CRet (Addr b2 0, m0))); last first.
  by rewrite /new_array /alloc /b2 size_rcons.
by rewrite !fixed_pos ?Sb ?blob_pos.
Qed.

Lemma does_blob p c blob m : ctx_at m p c -> api_typed api c -> size blob = 2 ^ 17 ->
  does (cs_blob_to_kzg_commitment api gc p blob) CsBytes m
    (from_native api CsBytes (ra_blob_to_kzg_commitment api c blob)).
Proof.
move=> Hc T Sb; have [m1 [b1 [b2 [N1 B1 B2 E]]]] := blob_prepared p m Sb.
apply: (does_at E N1); have Hc1 := native_ctx N1 Hc; have Hb := block_bytes B1.
case Er: (ra_blob_to_kzg_commitment api c blob) => [[com|e]|] /=.
- have W : writable m1 (Addr b2 0) 48.
    by exists (nseq 48 "000"%byte); rewrite size_nseq; split=> //; exact: block_bytes.
  have [m' [E' Ho U]] := C37_commit_ok Hc1 T Sb Hb W Er.
  apply: (does_ok CsBytes E'); last exact: keeps_native (unchanged_keeps U).
  have Sc := at_commitment T Sb Er.
  by rewrite /read_array /cread -Sc load_bytes_at //; case: (com) Sc.
- exact: (does_err _ _ (C37_commit_err _ Hc1 nul Sb Hb Er)).
by apply: does_abort; rewrite (commit_start _ _ Hc1 Sb Hb) Er.
Qed.

Lemma does_blob_null blob m : size blob = 2 ^ 17 ->
  does (cs_blob_to_kzg_commitment api gc Null blob) CsBytes m EAbort.
Proof.
move=> Sb; have [m1 [b1 [b2 [N1 B1 B2 E]]]] := blob_prepared Null m Sb.
by apply: (does_at E N1); apply: does_abort.
Qed.
End Blob.

(** *** The other methods, when nothing moves *)
Local Notation gc := (@no_gc ctx).

(** q points to an array of addresses; it is pinned but the array at the first address is not. *)
Definition loose m (pinned : seq ptr) (q : ptr) b n : Prop :=
  exists k s, [/\ q = Addr k 0 /\ q \in pinned, is_block m k (BPtrs _ (addrs b n)),
    is_block m b (BBytes _ s) & Addr b 0 \notin pinned].

Lemma neq_addr b b' : b <> b' -> (Addr b 0 == Addr b' 0) = false.
Proof. by move=> H; apply/eqP=> -[]. Qed.
Lemma notin3 a b c d : a < b -> b < c -> c < d -> Addr b 0 \notin [:: Addr a 0; Addr c 0; Addr d 0].
Proof. by move=> H1 H2 H3; rewrite !inE !neq_addr; lia. Qed.
Lemma neq_fixed b n b' : b <> b' -> (Addr b 0 == fixed_ptr n (Addr b' 0)) = false.
Proof. by move=> H; rewrite /fixed_ptr; case: ifP => // _; exact: neq_addr. Qed.

Lemma writable_block m b k : 0 < k -> writable m (Addr b 0) k -> exists s, is_block m b (BBytes _ s).
Proof.
move=> Hk [d [Sd [E|[b' [off [t [[<- _] Hb _ _]]]]]]]; last by exists t.
by move: Hk; rewrite -Sd E.
Qed.

Lemma notin_fixed a b n : a < b -> Addr b 0 != fixed_ptr n (Addr a 0).
Proof. by move=> H; rewrite neq_fixed; lia. Qed.
Lemma notin3r b a c d : b < a -> a < c -> c < d -> Addr b 0 \notin [:: Addr a 0; Addr c 0; Addr d 0].
Proof. by move=> H1 H2 H3; rewrite !inE !neq_addr; lia. Qed.

Lemma notin_fixed' a b n : b < a -> Addr b 0 != fixed_ptr n (Addr a 0).
Proof. by move=> H; rewrite neq_fixed; lia. Qed.
Lemma notin_addr a b : b < a -> Addr b 0 != Addr a 0.
Proof. by move=> H; rewrite neq_addr; lia. Qed.

Lemma notin5 b a1 n2 a2 n3 a3 n4 a4 a5 : b < a1 -> b < a2 -> b < a3 -> b < a4 -> b < a5 ->
  Addr b 0 \notin [:: Addr a1 0; fixed_ptr n2 (Addr a2 0); fixed_ptr n3 (Addr a3 0);
                      fixed_ptr n4 (Addr a4 0); Addr a5 0].
Proof.
by move=> H1 H2 H3 H4 H5; rewrite !inE !(neq_addr, neq_fixed); lia.
Qed.

Lemma compute_prepared p blob m : size blob = 2 ^ 17 ->
  exists m1 pb oc op b1 b2, [/\ ext m m1, bytes_at m1 pb blob, ptrs_at m1 oc (addrs b1 128) /\
    (forall i, i < 128 -> writable m1 (nth Null (addrs b1 128) i) 2048) /\ b1 + 128 <= b2,
    ptrs_at m1 op (addrs b2 128) /\ (forall i, i < 128 -> writable m1 (nth Null (addrs b2 128) i) 48) &
    ((exists2 kb, pb = Addr kb 0 & is_block m1 kb (BBytes _ blob)) /\ loose m1 [:: pb; oc; op] oc b1 128) /\
    forall gc, cs_compute_cells_and_kzg_proofs api gc p blob m =
    (clet r := eth_kzg_compute_cells_and_kzg_proofs api p pb oc op in
     checked r (clet cells := cmapM (read_array 2048) (addrs b1 128) in
                clet proofs := cmapM (read_array 48) (addrs b2 128) in cret (cells, proofs)))
      (gc [:: pb; oc; op] m1)].
Proof.
move=> Sb; pose m1 := rcons m (Some (BBytes _ blob)).
have X1 : ext m m1 by apply: ext_rcons.
have E1 : new_array blob m = CRet (Addr (size m) 0, m1) by [].
have [m2 E2 [X2 S2 W2]] := init_at 128 2048 m1.
have [m3 E3 [X3 S3 W3]] := init_at 128 48 m2.
have [oc E4 [P4 Q4]] := pointer_array_at (addrs (size m1) 128) m3.
set m4 := rcons m3 _ in E4 P4 *; have X4 : ext m3 m4 by apply: ext_rcons.
have [op E5 [P5 Q5]] := pointer_array_at (addrs (size m2) 128) m4.
set m5 := rcons m4 _ in E5 P5 *; have X5 : ext m4 m5 by apply: ext_rcons.
have X35 := ext_trans X4 X5; have X25 := ext_trans X3 X35; have X15 := ext_trans X2 X25.
exists m5, (Addr (size m) 0), oc, op, (size m1), (size m2); split.
- exact: ext_trans X15.
- exact: ext_bytes X15 (block_bytes (rcons_block _ _)).
- split; first exact: ext_ptrs X5 P4.
  by split; [exact: addrs_writable X25 W2|rewrite S2 leqnn].
- by split; [exact: P5|exact: addrs_writable X35 W3].
split.
  split; first by exists (size m); [exact: erefl|exact: ext_block X15 (rcons_block _ _)].
  have Eoc : oc = Addr (size m3) 0 by rewrite Q4 size_addrs.
  have Eop : op = Addr (size m4) 0 by rewrite Q5 size_addrs.
  have [s Hs] := writable_block (isT : 0 < 2048) (W2 0 isT); rewrite addn0 in Hs.
  have H2 : size m1 < size m3 by rewrite S3 S2 -addnA -{1}(addn0 (size m1)) ltn_add2l.
  have H3 : size m3 < size m4 by rewrite /m4 size_rcons ltnSn.
  have H1 : size m < size m1 by rewrite /m1 size_rcons ltnSn.
  exists (size m3), s; rewrite Eoc Eop; split; [split; [exact: erefl|]|exact: ext_block X5 (rcons_block _ _)|
    exact: ext_block X25 Hs|]; first by rewrite !inE eqxx orbT.
  exact: notin3 H1 H2 H3.
move=> g; rewrite /cs_compute_cells_and_kzg_proofs (if_neq _ _ Sb) (cbindE _ E1) (cbindE _ E2) (cbindE _ E3).
rewrite (@fixed_id BytesPerCell (addrs (size m1) 128) isT) (@fixed_id BytesPerProof (addrs (size m2) 128) isT).
rewrite (cbindE _ E4) (cbindE _ E5) fixed_pos; first by [].
by rewrite Sb; exact: blob_pos.
Qed.

Lemma does_arrays (call : cM ctx c_result) b1 b2 m m' cells proofs :
  call m = CRet (MkCResult StOk Null, m') -> same_native m m' ->
  size cells = 128 -> size proofs = 128 -> all (fun x => size x == 2048) cells ->
  all (fun x => size x == 48) proofs ->
  (forall i, i < 128 -> bytes_at m' (nth Null (addrs b1 128) i) (nth [::] cells i)) ->
  (forall i, i < 128 -> bytes_at m' (nth Null (addrs b2 128) i) (nth [::] proofs i)) ->
  does (clet r := call in
     checked r (clet cells := cmapM (read_array 2048) (addrs b1 128) in
                clet proofs := cmapM (read_array 48) (addrs b2 128) in cret (cells, proofs)))
    (fun cp => CsArrays cp.1 cp.2) m (EReturn (CsArrays cells proofs)).
Proof.
move=> E N Sc Sp Ac Ap H1 H2; apply: (does_ok (fun cp => CsArrays cp.1 cp.2) (a := (cells, proofs)) E) => //.
rewrite (cbindE _ (@read_arrays _ _ _ _ cells _ _ Ac _)) ?size_addrs ?Sc //.
by rewrite (cbindE _ (@read_arrays _ _ _ _ proofs _ _ Ap _)) ?size_addrs ?Sp.
Qed.

Lemma does_compute p c blob m : ctx_at m p c -> api_typed api c -> size blob = 2 ^ 17 ->
  does (cs_compute_cells_and_kzg_proofs api gc p blob) (fun cp => CsArrays cp.1 cp.2) m
    (from_native api (fun cp => CsArrays cp.1 cp.2) (ra_compute api c blob)).
Proof.
move=> Hc T Sb.
have [m1 [pb [oc [op [b1 [b2 [X Hb [P1 [W1 Hlt]] [P2 W2] [_ E]]]]]]]] := compute_prepared p m Sb.
apply: (does_at (E gc) (ext_native X)); have Hc1 := ext_ctx X Hc.
case Er: (ra_compute api c blob) => [[[cells proofs]|e]|] /=.
- have [m' [E' Ho1 Ho2 U]] := C37_compute_ok Hc1 T Sb Hb P1 (size_addrs _ _) W1 P2 (size_addrs _ _) W2
    (disjoint_addrs Hlt) Er.
  have [Sc Sp Ac Ap] := at_compute T Sb Er.
  exact: does_arrays E' (keeps_native (unchanged_keeps U)) Sc Sp Ac Ap Ho1 Ho2.
- exact: (does_err _ _ (C37_compute_err _ _ Hc1 nul Sb Hb Er)).
by apply: does_abort; rewrite (compute_start _ _ _ Hc1 Sb Hb) Er.
Qed.

Lemma does_compute_null blob m : size blob = 2 ^ 17 ->
  does (cs_compute_cells_and_kzg_proofs api gc Null blob) (fun cp => CsArrays cp.1 cp.2) m EAbort.
Proof.
move=> Sb; have [m1 [pb [oc [op [b1 [b2 [X _ _ _ [_ E]]]]]]]] := compute_prepared Null m Sb.
by apply: (does_at (E gc) (ext_native X)); apply: does_abort.
Qed.

Lemma ne_size (A : Type) (l : seq A) : l <> [::] -> 0 < size l.
Proof. by case: l. Qed.
Lemma arrays_put l m : exists m', [/\ jagged_array l m = CRet (addrs (size m) (size l), m'), ext m m',
  size m' = size m + size l &
  forall i, i < size l -> bytes_at m' (nth Null (addrs (size m) (size l)) i) (nth [::] l i)].
Proof. by have [m' E [X S H]] := jagged_at l m; exists m'. Qed.
Lemma arrays_first l m m' n : size m' = size m + size l -> 0 < n -> all_right n l ->
  (forall i, i < size l -> bytes_at m' (nth Null (addrs (size m) (size l)) i) (nth [::] l i)) ->
  l <> [::] -> exists s, is_block m' (size m) (BBytes _ s).
Proof.
case: l => // x l _ Hn /(_ 0 isT) /= Sx /(_ 0 isT) /= [E|[b [off [t [[<- _] Hb _ _]]]]] _; last by exists t.
by move: Hn; rewrite -Sx E.
Qed.
Lemma arrays_of m m' p ps (l : seq (seq byte)) : ptrs_at m p ps -> size ps = size l -> ext m' m ->
  (forall i, i < size l -> bytes_at m' (nth Null ps i) (nth [::] l i)) -> arrays_at m p l.
Proof.
by move=> H S X Hb; exists ps; split=> // i Hi; exact: ext_bytes X (Hb i Hi).
Qed.

Lemma recover_prepared p ids cells m : all_right 2048 cells ->
  exists m1 pi pc oc op b1 b2, [/\ ext m m1, u64s_at m1 pi ids /\ arrays_at m1 pc cells,
    ptrs_at m1 oc (addrs b1 128) /\
    (forall i, i < 128 -> writable m1 (nth Null (addrs b1 128) i) 2048) /\ b1 + 128 <= b2,
    ptrs_at m1 op (addrs b2 128) /\ (forall i, i < 128 -> writable m1 (nth Null (addrs b2 128) i) 48) &
    (cells <> [::] -> exists b, loose m1 [:: pi; pc; oc; op] pc b (size cells)) /\
    forall gc, cs_recover_cells_and_kzg_proofs api gc p ids cells m =
    (clet r := eth_kzg_recover_cells_and_proofs api p (size cells) pc (size ids) pi oc op in
     checked r (clet cells := cmapM (read_array 2048) (addrs b1 128) in
                clet proofs := cmapM (read_array 48) (addrs b2 128) in cret (cells, proofs)))
      (gc [:: pi; pc; oc; op] m1)].
Proof.
move=> R; pose m1 := rcons m (Some (BU64s _ ids)).
have X1 : ext m m1 by apply: ext_rcons.
have E1 : alloc (BU64s _ ids) m = CRet (Addr (size m) 0, m1) by [].
have [m2 [E2 X2 S2 B2]] := arrays_put cells m1.
have [m3 E3 [X3 S3 W3]] := init_at 128 2048 m2.
have [m4 E4 [X4 S4 W4]] := init_at 128 48 m3.
have [pc E5 [P5 Q5]] := pointer_array_at (addrs (size m1) (size cells)) m4.
set m5 := rcons m4 _ in E5 P5 *; have X5 : ext m4 m5 by apply: ext_rcons.
have [oc E6 [P6 Q6]] := pointer_array_at (addrs (size m2) 128) m5.
set m6 := rcons m5 _ in E6 P6 *; have X6 : ext m5 m6 by apply: ext_rcons.
have [op E7 [P7 Q7]] := pointer_array_at (addrs (size m3) 128) m6.
set m7 := rcons m6 _ in E7 P7 *; have X7 : ext m6 m7 by apply: ext_rcons.
have X57 := ext_trans X6 X7; have X47 := ext_trans X5 X57; have X37 := ext_trans X4 X47.
have X27 := ext_trans X3 X37; have X17 := ext_trans X2 X27.
exists m7, (fixed_ptr (size ids) (Addr (size m) 0)), pc, oc, op, (size m2), (size m3); split.
- exact: ext_trans X17.
- split; first exact: ext_u64s X17 (fixed_u64s (rcons_block _ _)).
  exact: arrays_of (ext_ptrs X57 P5) (size_addrs _ _) X27 B2.
- split; first exact: ext_ptrs X7 P6.
  by split; [exact: addrs_writable X37 W3|rewrite S3 leqnn].
- by split; [exact: P7|exact: addrs_writable X47 W4].
split.
  move=> Hn; have Hs := ne_size Hn.
  have [s Bs] := arrays_first S2 (isT : 0 < 2048) R B2 Hn.
  have Epc : pc = Addr (size m4) 0 by rewrite Q5 size_addrs fixed_pos.
  have Eoc : oc = Addr (size m5) 0 by rewrite Q6 size_addrs.
  have Eop : op = Addr (size m6) 0 by rewrite Q7 size_addrs.
  exists (size m1), (size m4), s; rewrite Epc Eoc Eop.
  have H0 : size m < size m1 by rewrite /m1 size_rcons ltnSn.
  have H1 : size m1 < size m2 by rewrite S2 -{1}(addn0 (size m1)) ltn_add2l.
  have H2 : size m1 < size m4 by apply: leq_trans H1 _; rewrite S4 S3 -addnA leq_addr.
  have H3 : size m4 < size m5 by rewrite /m5 size_rcons ltnSn.
  have H4 : size m5 < size m6 by rewrite /m6 size_rcons ltnSn.
  split; [split; [exact: erefl|]|exact: ext_block X57 (rcons_block _ _)|exact: ext_block X27 Bs|].
    by rewrite !inE eqxx orbT.
  by rewrite inE negb_or (notin_fixed _ H0) (notin3r H2 H3 H4).
move=> g; rewrite /cs_recover_cells_and_kzg_proofs (check_good _ _ R) (cbindE _ E1) (cbindE _ E2).
rewrite (cbindE _ E3) (cbindE _ E4).
rewrite (@fixed_id BytesPerCell (addrs (size m1) (size cells)) isT) (@fixed_id BytesPerCell (addrs (size m2) 128) isT).
rewrite (@fixed_id BytesPerProof (addrs (size m3) 128) isT).
by rewrite (cbindE _ E5) (cbindE _ E6) (cbindE _ E7).
Qed.

Lemma does_recover p c ids cells m : ctx_at m p c -> api_typed api c -> all_right 2048 cells ->
  does (cs_recover_cells_and_kzg_proofs api gc p ids cells) (fun cp => CsArrays cp.1 cp.2) m
    (from_native api (fun cp => CsArrays cp.1 cp.2) (ra_recover api c ids cells)).
Proof.
move=> Hc T R; have /all_rightP A := R.
have [m1 [pi [pc [oc [op [b1 [b2 [X [Hi Hd] [P1 [W1 Hlt]] [P2 W2] [_ E]]]]]]]]] := recover_prepared p ids m R.
apply: (does_at (E gc) (ext_native X)); have Hc1 := ext_ctx X Hc.
case Er: (ra_recover api c ids cells) => [[[cells' proofs]|e]|] /=.
- have [m' [E' Ho1 Ho2 U]] := C37_recover_ok Hc1 T A Hd Hi P1 (size_addrs _ _) W1 P2 (size_addrs _ _) W2
    (disjoint_addrs Hlt) Er.
  have [Sc Sp Ac Ap] := at_recover T A Er.
  exact: does_arrays E' (keeps_native (unchanged_keeps U)) Sc Sp Ac Ap Ho1 Ho2.
- exact: (does_err _ _ (C37_recover_err _ _ Hc1 nul A Hd Hi Er)).
by apply: does_abort; rewrite (recover_start _ _ _ Hc1 A Hd Hi) Er.
Qed.

Lemma does_recover_null ids cells m : all_right 2048 cells ->
  does (cs_recover_cells_and_kzg_proofs api gc Null ids cells) (fun cp => CsArrays cp.1 cp.2) m EAbort.
Proof.
move=> R; have [m1 [pi [pc [oc [op [b1 [b2 [X _ _ _ [_ E]]]]]]]]] := recover_prepared Null ids m R.
by apply: (does_at (E gc) (ext_native X)); apply: does_abort.
Qed.

Lemma verify_prepared p coms ids cells proofs m :
  all_right 2048 cells -> all_right 48 proofs -> all_right 48 coms ->
  exists m1 pm pi pc pp pv, [/\ ext m m1, arrays_at m1 pm coms /\ u64s_at m1 pi ids,
    arrays_at m1 pc cells /\ arrays_at m1 pp proofs,
    bool_at m1 pv false /\
    (coms <> [::] -> exists b, loose m1 [:: pm; pc; pp; pi; pv] pm b (size coms)) &
    forall gc, cs_verify_cell_kzg_proof_batch api gc p coms ids cells proofs m =
    (clet r := eth_kzg_verify_cell_kzg_proof_batch api p (size coms) pm (size ids) pi
       (size cells) pc (size proofs) pp pv in
     checked r (cread (fun m => load_bool m pv))) (gc [:: pm; pc; pp; pi; pv] m1)].
Proof.
move=> R1 R2 R3; have [m1 [E1 X1 S1 B1]] := arrays_put coms m.
pose m2 := rcons m1 (Some (BU64s _ ids)).
have X2 : ext m1 m2 by apply: ext_rcons.
have E2 : alloc (BU64s _ ids) m1 = CRet (Addr (size m1) 0, m2) by [].
have [m3 [E3 X3 S3 B3]] := arrays_put cells m2.
have [m4 [E4 X4 S4 B4]] := arrays_put proofs m3.
pose m5 := rcons m4 (Some (BBool _ false)).
have X5 : ext m4 m5 by apply: ext_rcons.
have E5 : alloc (BBool _ false) m4 = CRet (Addr (size m4) 0, m5) by [].
have [pc E6 [P6 Q6]] := pointer_array_at (addrs (size m2) (size cells)) m5.
set m6 := rcons m5 _ in E6 P6 *; have X6 : ext m5 m6 by apply: ext_rcons.
have [pm E7 [P7 Q7]] := pointer_array_at (addrs (size m) (size coms)) m6.
set m7 := rcons m6 _ in E7 P7 *; have X7 : ext m6 m7 by apply: ext_rcons.
have [pp E8 [P8 Q8]] := pointer_array_at (addrs (size m3) (size proofs)) m7.
set m8 := rcons m7 _ in E8 P8 *; have X8 : ext m7 m8 by apply: ext_rcons.
have X68 := ext_trans X7 X8; have X58 := ext_trans X6 X68; have X48 := ext_trans X5 X58.
have X38 := ext_trans X4 X48; have X28 := ext_trans X3 X38; have X18 := ext_trans X2 X28.
exists m8, pm, (fixed_ptr (size ids) (Addr (size m1) 0)), pc, pp, (Addr (size m4) 0); split.
- exact: ext_trans X18.
- split; first exact: arrays_of (ext_ptrs X8 P7) (size_addrs _ _) X18 B1.
  exact: ext_u64s X28 (fixed_u64s (rcons_block _ _)).
- split; first exact: arrays_of (ext_ptrs X68 P6) (size_addrs _ _) X38 B3.
  exact: arrays_of P8 (size_addrs _ _) X48 B4.
- split; first by exists (size m4); [exact: erefl|exact: ext_block X58 (rcons_block _ _)].
  move=> Hn; have Hs := ne_size Hn.
  have [s Bs] := arrays_first S1 (isT : 0 < 48) R3 B1 Hn.
  have Epm : pm = Addr (size m6) 0 by rewrite Q7 size_addrs fixed_pos.
  exists (size m), (size m6), s; rewrite Epm Q6 Q8.
  have H1 : size m < size m1 by rewrite S1 -{1}(addn0 (size m)) ltn_add2l.
  have H4 : size m < size m4 by rewrite S4 S3 /m2 size_rcons S1; lia.
  have H5 : size m < size m5 by rewrite /m5 size_rcons ltnW.
  have H6 : size m < size m6 by rewrite /m6 size_rcons ltnW.
  have H7 : size m < size m7 by rewrite /m7 size_rcons ltnW.
  split; [split; [exact: erefl|]|exact: ext_block X8 (rcons_block _ _)|exact: ext_block X18 Bs|].
    by rewrite !inE eqxx.
  exact: notin5 H6 H5 H7 H1 H4.
move=> g.
rewrite /cs_verify_cell_kzg_proof_batch (check_good _ _ R1) (check_good _ _ R2) (check_good _ _ R3).
rewrite (cbindE _ E1) (cbindE _ E2) (cbindE _ E3) (cbindE _ E4) (cbindE _ E5).
rewrite (@fixed_id BytesPerCell (addrs (size m2) (size cells)) isT) (@fixed_id BytesPerCommitment (addrs (size m) (size coms)) isT).
rewrite (@fixed_id BytesPerCommitment (addrs (size m3) (size proofs)) isT).
by rewrite (cbindE _ E6) (cbindE _ E7) (cbindE _ E8).
Qed.

Lemma bool_native m m' v x y : bool_at m v x -> bool_at m' v y -> unchanged_except_bool v m m' ->
  same_native m m'.
Proof.
move=> [b -> [Hb Eb]] [b' [<-] [_ Eb']] [S U] i blk Hc; split=> -[Hi Ei]; split; rewrite ?S // -?S //.
  by case: (eqVneq i b) Ei => [->|/eqP Hn]; [rewrite Eb' => -[E]; move: Hc; rewrite -E|rewrite U // => -[]].
by case: (eqVneq i b) Ei => [->|/eqP Hn]; [rewrite Eb => -[E]; move: Hc; rewrite -E|rewrite U // => -[]].
Qed.
Lemma load_bool_at m v x : bool_at m v x -> load_bool m v = Some x.
Proof. by move=> [b -> /live_blockP E]; rewrite /load_bool E. Qed.

Lemma does_verify p c coms ids cells proofs m : ctx_at m p c ->
  all_right 2048 cells -> all_right 48 proofs -> all_right 48 coms ->
  does (cs_verify_cell_kzg_proof_batch api gc p coms ids cells proofs) CsBool m
    (from_verdict api (ra_verify api c coms ids cells proofs)).
Proof.
move=> Hc R1 R2 R3; have /all_rightP A1 := R1; have /all_rightP A2 := R2; have /all_rightP A3 := R3.
have [m1 [pm [pi [pc [pp [pv [X [Hm Hi] [Hd Hp] [Hv _] E]]]]]]] := verify_prepared p ids m R1 R2 R3.
apply: (does_at (E gc) (ext_native X)); have Hc1 := ext_ctx X Hc.
have Rd m' x : bool_at m' pv x -> cread (fun m => load_bool m pv) m' = CRet (x, m').
  by move=> /load_bool_at H; rewrite /cread H.
case Er: (ra_verify api c coms ids cells proofs) => [[[]|e]|] /=.
- have [m' [E' B U]] := C37_verify_true Hc1 A3 Hm Hi A1 Hd A2 Hp Hv Er.
  exact: (does_ok CsBool E' (Rd _ _ B) (bool_native Hv B U)).
- case: ifP => He; last exact: (does_err _ _ (C37_verify_err Hc1 A3 Hm Hi A1 Hd A2 Hp Hv nul Er (negbT He))).
  have [m' [E' B U]] := C37_verify_false Hc1 A3 Hm Hi A1 Hd A2 Hp Hv Er He.
  exact: (does_ok CsBool E' (Rd _ _ B) (bool_native Hv B U)).
by apply: does_abort; rewrite (verify_start _ Hc1 A3 Hm Hi A1 Hd A2 Hp Hv) Er.
Qed.

Lemma does_verify_null coms ids cells proofs m :
  all_right 2048 cells -> all_right 48 proofs -> all_right 48 coms ->
  does (cs_verify_cell_kzg_proof_batch api gc Null coms ids cells proofs) CsBool m EAbort.
Proof.
move=> R1 R2 R3.
have [m1 [pm [pi [pc [pp [pv [X _ _ _ E]]]]]]] := verify_prepared Null ids m R1 R2 R3.
by apply: (does_at (E gc) (ext_native X)); apply: does_abort.
Qed.
End Methods.
