(** Lemmas about the C memory model and the entry points. *)

From Coq Require Import NArith Init.Byte.
From mathcomp Require Import ssreflect ssrfun ssrbool eqtype ssrnat seq div.
From mathcomp Require Import zify_ssreflect.
From Verif Require Import Base Bytes CMem Eip7594 CApi SpecC.

Set Implicit Arguments.
Unset Strict Implicit.
Unset Printing Implicit Defensive.

Section Mem.
Variable ctx : Type.
Local Notation mem := (mem ctx).
Implicit Types (m : mem) (p : ptr) (data : seq byte).

Lemma live_blockP m b blk : live_block m b = Some blk <-> is_block m b blk.
Proof.
rewrite /live_block /is_block; case: (ltnP b (size m)) => H; last by rewrite oget_none //; split=> [|[]].
rewrite (oget_nth None) //; case: (nth None m b) => [x|]; last by split=> [|[]].
by split=> [[->]|[_ [->]]].
Qed.
Lemma is_block_inj m b blk blk' : is_block m b blk -> is_block m b blk' -> blk = blk'.
Proof. by move=> [_ E] [_]; rewrite E => -[]. Qed.

Lemma slice_nth (T : Type) (x0 : T) (s l : seq T) off : off + size l <= size s ->
  (forall i, i < size l -> nth x0 s (off + i) = nth x0 l i) -> take (size l) (drop off s) = l.
Proof.
move=> Hs H; apply: (@eq_from_nth _ x0); first by rewrite size_takel // size_drop; lia.
move=> i; rewrite size_takel; last by rewrite size_drop; lia.
by move=> Hi; rewrite nth_take // nth_drop H.
Qed.

Lemma load_bytes_at m p data : bytes_at m p data -> data <> [::] ->
  load_bytes m p (size data) = Some data.
Proof.
case=> [->//|[b [off [s [-> /live_blockP Hb Hs H]]]]] _.
by rewrite /load_bytes Hb Hs (slice_nth Hs H).
Qed.
Lemma load_ptrs_at m p ps : ptrs_at m p ps -> ps <> [::] -> load_ptrs m p (size ps) = Some ps.
Proof.
case=> [->//|[b [off [s [-> /live_blockP Hb Hs H]]]]] _.
by rewrite /load_ptrs Hb Hs (slice_nth Hs H).
Qed.
Lemma load_u64s_at m p ns : u64s_at m p ns -> ns <> [::] -> load_u64s m p (size ns) = Some ns.
Proof.
case=> [->//|[b [off [s [-> /live_blockP Hb Hs H]]]]] _.
by rewrite /load_u64s Hb Hs (slice_nth Hs H).
Qed.

(** ** Inputs *)
Lemma create_array_ref_at m p data n : size data = n -> bytes_at m p data ->
  create_array_ref n p m = CRet (data, m).
Proof.
move=> Sn H; rewrite /create_array_ref /create_slice_view_u8 -Sn size_eq0.
case: eqP => [->|Hd]; first by [].
by rewrite /cbind /cread (load_bytes_at H Hd) /cassert eqxx.
Qed.

Lemma create_slice_view_u64_at m p ns : u64s_at m p ns ->
  create_slice_view_u64 p (size ns) m = CRet (ns, m).
Proof.
move=> H; rewrite /create_slice_view_u64 size_eq0; case: eqP => [->|Hd]; first by [].
by rewrite /cread (load_u64s_at H Hd).
Qed.

Lemma cmapM_at m n ps (arrays : seq (seq byte)) : size ps = size arrays ->
  all (fun x => size x == n) arrays ->
  (forall i, i < size arrays -> bytes_at m (nth Null ps i) (nth [::] arrays i)) ->
  cmapM (create_array_ref (ctx := ctx) n) ps m = CRet (arrays, m).
Proof.
elim: arrays ps => [|x arrays IH] [|p ps] //= [Sz] /andP[/eqP Sx Ha] H.
rewrite /cbind (create_array_ref_at Sx (H 0 isT)).
by rewrite (IH ps Sz Ha) // => i Hi; exact: (H i.+1 Hi).
Qed.

Lemma ptr_ptr_to_vec_at m n p arrays : all (fun x => size x == n) arrays -> arrays_at m p arrays ->
  ptr_ptr_to_vec_slice_const n p (size arrays) m = CRet (arrays, m).
Proof.
move=> Ha [ps [Hp Sp H]]; rewrite /ptr_ptr_to_vec_slice_const -Sp.
case: eqP => [S0|Hn]; first by move: Sp; rewrite S0; case: (arrays).
rewrite /cbind /cread (load_ptrs_at Hp); last by move=> E; rewrite E in Hn.
exact: cmapM_at.
Qed.

Lemma deref_ctx_at m p c : ctx_at m p c -> deref_ctx p m = CRet (c, m).
Proof. by case=> b -> /live_blockP H; rewrite /deref_ctx /cread /load_ctx H. Qed.
Lemma ctx_not_null m p c : ctx_at m p c -> is_null p = false.
Proof. by case=> b ->. Qed.

(** ** Changes *)

Lemma size_set m b (blk : option (block ctx)) : b < size m -> size (set_nth None m b blk) = size m.
Proof. by move=> H; rewrite size_set_nth; apply/maxn_idPr. Qed.

Lemma unchanged_refl rs m : unchanged_except rs m m.
Proof. by split=> // b _; left. Qed.

Lemma unchanged_trans rs1 rs2 m1 m2 m3 : unchanged_except rs1 m1 m2 -> unchanged_except rs2 m2 m3 ->
  unchanged_except (rs1 ++ rs2) m1 m3.
Proof.
move=> [S1 H1] [S2 H2]; split; first by rewrite S2.
move=> b Hb; have Hb2 : b < size m2 by rewrite S1.
case: (H1 b Hb) (H2 b Hb2) => [E1|[s1 [s2 [A1 A2 A3 A4]]]] [E2|[s2' [s3 [B1 B2 B3 B4]]]].
- by left; rewrite E2.
- right; exists s2', s3; split=> //; first by rewrite -E1.
  by move=> off; rewrite has_cat negb_or => /andP[_]; exact: B4.
- right; exists s1, s2; split=> //; first by rewrite E2.
  by move=> off; rewrite has_cat negb_or => /andP[+ _]; exact: A4.
right; exists s1, s3; move: B1; rewrite A2 => -[E]; subst s2'; split=> //; first by rewrite B3.
move=> off; rewrite has_cat negb_or => /andP[C1 C2].
by rewrite (B4 off C2) (A4 off C1).
Qed.

Lemma unchanged_block rs m m' b blk : unchanged_except rs m m' ->
  is_block m b blk -> (forall s, blk <> BBytes _ s) -> is_block m' b blk.
Proof.
move=> [S H] [Hb E] Hn; split; first by rewrite S.
by case: (H b Hb) => [->//|[s [s' [A _ _ _]]]]; move: A; rewrite E => -[/Hn].
Qed.
Lemma unchanged_ptrs rs m m' p ps : unchanged_except rs m m' -> ptrs_at m p ps -> ptrs_at m' p ps.
Proof.
move=> U [->|[b [off [s [Ep Hb Hs H]]]]]; [by left|right].
by exists b, off, s; split=> //; apply: (unchanged_block U Hb).
Qed.

Lemma unchanged_bytes rs m m' p data : unchanged_except rs m m' -> bytes_at m p data ->
  (forall b off, in_region (p, size data) b off -> ~~ has (fun r => in_region r b off) rs) ->
  bytes_at m' p data.
Proof.
move=> [Sm U] [->|[b [off [s [Ep [Hb E] Hs H]]]]] D; [by left|right].
case: (U b Hb) => [E'|[s1 [s2 [A1 A2 A3 A4]]]].
  by exists b, off, s; split=> //; split; rewrite ?Sm ?E'.
move: A1; rewrite E => -[Es]; subst s1; exists b, off, s2; split=> //.
- by split; rewrite ?Sm.
- by rewrite A3.
by move=> i Hi; rewrite A4 ?H //; apply: D; rewrite Ep /in_region /= eqxx; lia.
Qed.

Lemma unchanged_writable rs m m' p n : unchanged_except rs m m' -> writable m p n -> writable m' p n.
Proof.
move=> [Sm U] [data [Sd [E|[b [off [s [Ep [Hb E] Hs H]]]]]]].
  by exists [::]; split; [rewrite -Sd E|left].
case: (U b Hb) => [E'|[s1 [s2 [A1 A2 A3 A4]]]].
  by exists data; split=> //; right; exists b, off, s; split=> //; split; rewrite ?Sm ?E'.
move: A1; rewrite E => -[Es]; subst s1.
have Ht : size (take n (drop off s2)) = n by rewrite size_takel // size_drop A3; lia.
exists (take n (drop off s2)); split=> //.
right; exists b, off, s2; split=> //; first by split; rewrite ?Sm.
  by rewrite Ht A3 -Sd.
by rewrite Ht => i Hi; rewrite nth_take // nth_drop.
Qed.

(** ** Writing bytes *)
Lemma nth_overwrite s off data i : off + size data <= size s ->
  nth "000"%byte (overwrite s off data) i =
  if off <= i < off + size data then nth "000"%byte data (i - off) else nth "000"%byte s i.
Proof.
move=> Hs; rewrite /overwrite nth_cat size_takel; last by lia.
case: (ltnP i off) => Hi /=; first by rewrite nth_take.
rewrite nth_cat ltn_subLR // ; case: ltnP => Hd //.
by rewrite nth_drop; congr nth; lia.
Qed.
Lemma size_overwrite s off data : off + size data <= size s -> size (overwrite s off data) = size s.
Proof. by move=> Hs; rewrite /overwrite !size_cat size_takel ?size_drop; lia. Qed.

Lemma store_bytes_ok m p data : data <> [::] -> writable m p (size data) ->
  exists m', [/\ store_bytes p data m = Some m', bytes_at m' p data &
    unchanged_except [:: (p, size data)] m m'].
Proof.
move=> Hd [old [So [E|[b [off [s [Ep [Hb E] Hs H]]]]]]].
  by move: So; rewrite E => /esym/size0nil.
rewrite So in Hs.
have Hl : live_block m b = Some (BBytes _ s) by apply/live_blockP.
rewrite Ep /store_bytes Hl Hs; eexists; split; first by [].
  right; exists b, off, (overwrite s off data); split=> //.
  - by split; rewrite ?size_set // nth_set_nth /= eqxx.
  - by rewrite size_overwrite.
  by move=> i Hi; rewrite nth_overwrite // leq_addr ltn_add2l Hi /= addKn.
split; first by rewrite size_set.
move=> b' Hb'; rewrite nth_set_nth /=; case: eqP => [->|_]; [right|by left].
exists s, (overwrite s off data); split=> //; first by rewrite size_overwrite.
by move=> i /=; rewrite orbF /in_region /= eqxx nth_overwrite //= => /negbTE ->.
Qed.

(** Without a result to look at: the write succeeds and keeps shapes. *)
Lemma citer_store m (pds : seq (ptr * seq byte)) :
  all (fun pd => pd.2 != [::]) pds ->
  (forall pd, pd \in pds -> writable m pd.1 (size pd.2)) ->
  exists m', citer (fun pd => write_to_slice (ctx := ctx) pd.1 pd.2) pds m = CRet (tt, m') /\
    unchanged_except [seq (pd.1, size pd.2) | pd <- pds] m m'.
Proof.
elim: pds m => [|[p d] pds IH] m /=.
  by move=> _ _; exists m; split=> //; exact: unchanged_refl.
case/andP=> /eqP Hd Ha Hw.
have [m1 [E1 _ U1]] := store_bytes_ok Hd (Hw (p, d) (mem_head _ _)).
have [pd Hpd|m2 [E2 U2]] := IH m1 Ha.
  by apply: (unchanged_writable U1); apply: Hw; rewrite in_cons Hpd orbT.
exists m2; split; last exact: (unchanged_trans U1 U2).
by rewrite /cbind /write_to_slice /cwrite E1.
Qed.

Lemma citer_store_at m (pds : seq (ptr * seq byte)) :
  all (fun pd => pd.2 != [::]) pds ->
  (forall pd, pd \in pds -> writable m pd.1 (size pd.2)) ->
  disjoint_regions [seq (pd.1, size pd.2) | pd <- pds] ->
  exists m', [/\ citer (fun pd => write_to_slice (ctx := ctx) pd.1 pd.2) pds m = CRet (tt, m'),
    forall pd, pd \in pds -> bytes_at m' pd.1 pd.2 &
    unchanged_except [seq (pd.1, size pd.2) | pd <- pds] m m'].
Proof.
elim: pds m => [|[p d] pds IH] m /=.
  by move=> _ _ _; exists m; split=> //; exact: unchanged_refl.
case/andP=> /eqP Hd Ha Hw D.
have [m1 [E1 B1 U1]] := store_bytes_ok Hd (Hw (p, d) (mem_head _ _)).
have [pd Hpd||m2 [E2 B2 U2]] := IH m1 Ha.
- by apply: (unchanged_writable U1); apply: Hw; rewrite in_cons Hpd orbT.
- by move=> i j b off Hij; exact: (D i.+1 j.+1 b off).
exists m2; split; last exact: (unchanged_trans U1 U2).
  by rewrite /cbind /write_to_slice /cwrite E1.
move=> pd; rewrite in_cons => /orP[/eqP -> /=|]; last exact: B2.
apply: (unchanged_bytes U2 B1) => b off Hin.
apply/hasPn => r /(nthP (Null, 0))[j Hj <-].
exact: (D 0 j.+1 b off Hj Hin).
Qed.

Definition out_regions (ps : seq ptr) (data : seq (seq byte)) : seq region :=
  [seq (pd.1, size pd.2) | pd <- zip ps data].

Lemma out_regionsE (ps : seq ptr) (data : seq (seq byte)) n : size ps = size data -> all (fun x => size x == n) data ->
  out_regions ps data = [seq (p, n) | p <- ps].
Proof.
rewrite /out_regions; elim: ps data => [|p ps IH] [|d data] //= [S] /andP[/eqP -> Ha].
by rewrite (IH _ S Ha).
Qed.

Lemma zip_in (ps : seq ptr) (data : seq (seq byte)) pd : size ps = size data -> pd \in zip ps data ->
  exists2 i, i < size ps & pd = (nth Null ps i, nth [::] data i).
Proof.
move=> S /(nthP (Null, [::]))[i]; rewrite size_zip -S minnn => Hi <-.
by exists i => //; rewrite nth_zip.
Qed.
Lemma in_zip (ps : seq ptr) (data : seq (seq byte)) i : size ps = size data -> i < size ps ->
  (nth Null ps i, nth [::] data i) \in zip ps data.
Proof. by move=> S Hi; rewrite -nth_zip // mem_nth // size_zip -S minnn. Qed.

Lemma write_to_2d_slice_ok m out ps (data : seq (seq byte)) k n : 0 < n ->
  ptrs_at m out ps -> size ps = k -> size data = k -> all (fun x => size x == n) data ->
  (forall i, i < k -> writable m (nth Null ps i) n) ->
  exists m', write_to_2d_slice k out data m = CRet (tt, m') /\
    unchanged_except [seq (p, n) | p <- ps] m m'.
Proof.
move=> n0 Hp Sp Sd Ha Hw.
have Hne : all (fun pd => pd.2 != [::]) (zip ps data).
  apply/allP => pd Hpd; have [|i Hi ->] := zip_in _ Hpd; first by rewrite Sp Sd.
  by rewrite -size_eq0 /= (eqP (all_nthP [::] Ha i _)) ?Sd -?Sp // -lt0n.
have [|m' [E U]] := @citer_store m _ Hne.
  move=> pd Hpd; have [|i Hi ->] := zip_in _ Hpd; first by rewrite Sp Sd.
  by rewrite /= (eqP (all_nthP [::] Ha i _)) ?Sd -?Sp //; apply: Hw; rewrite -Sp.
exists m'; split; last by rewrite -(@out_regionsE ps data n) // Sp Sd.
rewrite /write_to_2d_slice /ptr_ptr_to_slice_slice_mut /cbind.
case: eqP => k0.
  by move: E; have -> : ps = [::] by apply/size0nil; rewrite Sp.
by rewrite /cread -{1}Sp (load_ptrs_at Hp) // => E0; rewrite -Sp E0 in k0.
Qed.

Lemma write_to_2d_slice_at m out ps (data : seq (seq byte)) k n : 0 < n ->
  ptrs_at m out ps -> size ps = k -> size data = k -> all (fun x => size x == n) data ->
  (forall i, i < k -> writable m (nth Null ps i) n) ->
  disjoint_regions [seq (p, n) | p <- ps] ->
  exists m', [/\ write_to_2d_slice k out data m = CRet (tt, m'),
    forall i, i < k -> bytes_at m' (nth Null ps i) (nth [::] data i) &
    unchanged_except [seq (p, n) | p <- ps] m m'].
Proof.
move=> n0 Hp Sp Sd Ha Hw D.
have Hne : all (fun pd => pd.2 != [::]) (zip ps data).
  apply/allP => pd Hpd; have [|i Hi ->] := zip_in _ Hpd; first by rewrite Sp Sd.
  by rewrite -size_eq0 /= (eqP (all_nthP [::] Ha i _)) ?Sd -?Sp // -lt0n.
have [||m' [E B U]] := @citer_store_at m _ Hne.
- move=> pd Hpd; have [|i Hi ->] := zip_in _ Hpd; first by rewrite Sp Sd.
  by rewrite /= (eqP (all_nthP [::] Ha i _)) ?Sd -?Sp //; apply: Hw; rewrite -Sp.
- by rewrite -[map _ _]/(out_regions ps data) (@out_regionsE ps data n) // Sp Sd.
exists m'; split; last by rewrite -(@out_regionsE ps data n) // Sp Sd.
  rewrite /write_to_2d_slice /ptr_ptr_to_slice_slice_mut /cbind.
  case: eqP => k0.
    by move: E; have -> : ps = [::] by apply/size0nil; rewrite Sp.
  by rewrite /cread -{1}Sp (load_ptrs_at Hp) // => E0; rewrite -Sp E0 in k0.
by move=> i Hi; apply: (B (_, _)); apply: in_zip; rewrite Sp ?Sd.
Qed.

End Mem.

(** ** Constants *)
Lemma c_blob : BYTES_PER_BLOB eip7594_consts = 2 ^ 17.
Proof. by rewrite /BYTES_PER_BLOB /= /BYTES_PER_FIELD_ELEMENT -[32]/(2 ^ 5) -expnD. Qed.
Lemma c_cell : BYTES_PER_CELL eip7594_consts = 2048.
Proof. by []. Qed.
Lemma c_cells : CELLS_PER_EXT_BLOB eip7594_consts = 128.
Proof.
rewrite /CELLS_PER_EXT_BLOB /FIELD_ELEMENTS_PER_EXT_BLOB.
rewrite -[EXPANSION_FACTOR _]/(2 ^ 1) -[FIELD_ELEMENTS_PER_CELL _]/(2 ^ 6) -[FIELD_ELEMENTS_PER_BLOB _]/(2 ^ 12).
by rewrite -expnD -expnB.
Qed.

Local Opaque expn.

(** ** Memory that only the library owns *)
Section Keeps.
Variables (ctx err : Type) (api : rust_api ctx err).
Local Notation mem := (mem ctx).

(** Contexts and messages are the same. *)
Definition keeps (m m' : mem) : Prop :=
  size m' = size m /\ forall b blk, ~~ caller_block blk -> is_block m' b blk <-> is_block m b blk.

Lemma keeps_refl m : keeps m m. Proof. by split. Qed.
Lemma keeps_trans m1 m2 m3 : keeps m1 m2 -> keeps m2 m3 -> keeps m1 m3.
Proof.
move=> [S1 H1] [S2 H2]; split; first by rewrite S2.
by move=> b blk Hb; rewrite (H2 b blk Hb) (H1 b blk Hb).
Qed.
Lemma unchanged_keeps rs m m' : unchanged_except rs m m' -> keeps m m'.
Proof.
move=> [S H]; split=> // b blk Hb; rewrite /is_block S.
split=> -[Hs E]; split=> //.
  by case: (H b Hs) => [<-//|[s [s' [_ A _ _]]]]; move: E Hb; rewrite A => -[<-].
by case: (H b Hs) => [->//|[s [s' [A _ _ _]]]]; move: E Hb; rewrite A => -[<-].
Qed.
Lemma keeps_set m b old new : is_block m b old -> caller_block old -> caller_block new ->
  keeps m (set_nth None m b (Some new)).
Proof.
move=> [Hb E] Ho Hn; split; first exact: size_set.
move=> b' blk Hc; rewrite /is_block size_set // nth_set_nth /=; case: eqP => // ->.
by split=> -[_]; rewrite ?E => -[Ee]; move: Hc; rewrite -Ee ?Ho ?Hn.
Qed.

Lemma store_bytes_keeps p data (m m' : mem) : store_bytes p data m = Some m' -> keeps m m'.
Proof.
case: p => [|b off] //=; case E: (live_block m b) => [[| |s| | |]|] //=; case: ifP => // _ [<-].
by apply: (keeps_set (proj1 (live_blockP _ _ _) E)).
Qed.
Lemma store_bool_keeps p v (m m' : mem) : store_bool p v m = Some m' -> keeps m m'.
Proof.
case: p => [|b [|off]] //=; case E: (live_block m b) => [[]|] //= [<-].
by apply: (keeps_set (proj1 (live_blockP _ _ _) E)).
Qed.

Lemma citer_keeps pds (m m' : mem) x :
  citer (fun pd => write_to_slice (ctx := ctx) pd.1 pd.2) pds m = CRet (x, m') -> keeps m m'.
Proof.
elim: pds m => [|pd pds IH] m /=; first by case=> _ <-; exact: keeps_refl.
rewrite /cbind /write_to_slice /cwrite; case E: store_bytes => [m1|] // /IH.
by apply: keeps_trans; exact: store_bytes_keeps E.
Qed.

(** Reading leaves memory alone. *)
Definition reader (A : Type) (f : cM ctx A) : Prop := forall m a m', f m = CRet (a, m') -> m' = m.
Lemma reader_ret A (a : A) : reader (cret a). Proof. by move=> m x m' [_ <-]. Qed.
Lemma reader_read A (f : mem -> option A) : reader (cread f).
Proof. by move=> m x m'; rewrite /cread; case: (f m) => // y [_ <-]. Qed.
Lemma reader_rust A (r : outcome A) : reader (crust r).
Proof. by move=> m x m'; rewrite /crust; case: r => // y [_ <-]. Qed.
Lemma reader_assert b : reader (cassert b).
Proof. by move=> m x m'; rewrite /cassert; case: b => // -[_ <-]. Qed.
Lemma reader_bind A B (f : cM ctx A) (k : A -> cM ctx B) : reader f -> (forall a, reader (k a)) ->
  reader (cbind f k).
Proof. by move=> Hf Hk m b m'; rewrite /cbind; case E: (f m) => [[a m1]||] // /Hk ->; exact: Hf E. Qed.
Lemma reader_view p n : reader (create_slice_view_u8 p n).
Proof. by rewrite /create_slice_view_u8; case: ifP => _; [exact: reader_ret|exact: reader_read]. Qed.
Lemma reader_view64 p n : reader (create_slice_view_u64 p n).
Proof. by rewrite /create_slice_view_u64; case: ifP => _; [exact: reader_ret|exact: reader_read]. Qed.
Lemma reader_array p n : reader (create_array_ref n p).
Proof.
apply: reader_bind; [exact: reader_view|move=> s]; apply: reader_bind; [exact: reader_assert|move=> _].
exact: reader_ret.
Qed.
Lemma reader_vec n p k : reader (ptr_ptr_to_vec_slice_const n p k).
Proof.
rewrite /ptr_ptr_to_vec_slice_const; case: ifP => _; first exact: reader_ret.
apply: reader_bind; [exact: reader_read|elim=> [|q qs IH] /=; first exact: reader_ret].
apply: reader_bind; [exact: reader_array|move=> x]; apply: reader_bind; [exact: IH|move=> xs].
exact: reader_ret.
Qed.
Lemma reader_deref p : reader (deref_ctx p). Proof. exact: reader_read. Qed.
Lemma reader_deref_bool p : reader (deref_mut_bool p).
Proof. by apply: reader_bind; [exact: reader_read|move=> x; exact: reader_ret]. Qed.
Lemma reader_slices p n : reader (ptr_ptr_to_slice_slice_mut p n).
Proof.
by rewrite /ptr_ptr_to_slice_slice_mut; case: ifP => _; [exact: reader_ret|exact: reader_read].
Qed.
Lemma write_2d_keeps n p data (m m' : mem) x : write_to_2d_slice n p data m = CRet (x, m') -> keeps m m'.
Proof.
rewrite /write_to_2d_slice /cbind; case E: ptr_ptr_to_slice_slice_mut => [[ps m1]||] //.
by rewrite (reader_slices E); exact: citer_keeps.
Qed.

(** What the four calls do to memory, without any assumption about their arguments. *)
Definition call_effect (m : mem) (r : c_result) (m' : mem) : Prop :=
  (r = MkCResult StOk Null /\ keeps m m') \/
  exists e, r = MkCResult StErr (Addr (size m) 0) /\ m' = rcons m (Some (BMsg _ (ra_debug api e))).

Lemma reader_effect A (f : cM ctx A) (k : A -> cM ctx c_result) m r m' : reader f ->
  cbind f k m = CRet (r, m') -> exists a, k a m = CRet (r, m').
Proof. by move=> Hf; rewrite /cbind; case E: (f m) => [[a m1]||] // H; exists a; rewrite -(Hf _ _ _ E). Qed.

Lemma ctry_effect A (x : outcome (result A err)) k m r m' : ctry api x k m = CRet (r, m') ->
  (forall a, k a m = CRet (r, m') -> call_effect m r m') -> call_effect m r m'.
Proof.
move=> H Hk; move: H; rewrite /ctry => /(reader_effect (@reader_rust _ _))[[a|e]]; first exact: Hk.
rewrite /with_error => /(reader_effect (@reader_assert _))[_].
by rewrite /cbind /alloc /= => -[<- <-]; right; exists e.
Qed.

Lemma write2_effect n p1 p2 (d1 d2 : seq (seq byte)) m r m' :
  (clet _ := write_to_2d_slice n p1 d1 in clet _ := write_to_2d_slice n p2 d2 in cret with_ok) m
    = CRet (r, m') -> call_effect m r m'.
Proof.
rewrite {1}/cbind; case E1: write_to_2d_slice => [[x m1]||] //.
rewrite /cbind; case E2: write_to_2d_slice => [[y m2]||] // [<- <-]; left; split=> //.
exact: keeps_trans (write_2d_keeps E1) (write_2d_keeps E2).
Qed.

Lemma commit_effect p blob out m r m' :
  eth_kzg_blob_to_kzg_commitment api p blob out m = CRet (r, m') -> call_effect m r m'.
Proof.
rewrite /eth_kzg_blob_to_kzg_commitment.
move/(reader_effect (@reader_assert _)) => [_] /(reader_effect (@reader_deref _))[c].
move/(reader_effect (@reader_array _ _)) => [b] /ctry_effect; apply=> com.
move/(reader_effect (@reader_assert _)) => [_].
rewrite /cbind /write_to_slice /cwrite; case E: store_bytes => [m1|] // [<- <-].
by left; split=> //; exact: store_bytes_keeps E.
Qed.
Lemma compute_effect p blob oc op m r m' :
  eth_kzg_compute_cells_and_kzg_proofs api p blob oc op m = CRet (r, m') -> call_effect m r m'.
Proof.
rewrite /eth_kzg_compute_cells_and_kzg_proofs.
move/(reader_effect (@reader_assert _)) => [_] /(reader_effect (@reader_deref _))[c].
by move/(reader_effect (@reader_array _ _)) => [b] /ctry_effect; apply=> cp /write2_effect.
Qed.
Lemma recover_effect p n cells k ids oc op m r m' :
  eth_kzg_recover_cells_and_proofs api p n cells k ids oc op m = CRet (r, m') -> call_effect m r m'.
Proof.
rewrite /eth_kzg_recover_cells_and_proofs.
move/(reader_effect (@reader_assert _)) => [_] /(reader_effect (@reader_deref _))[c].
move/(reader_effect (@reader_vec _ _ _)) => [b] /(reader_effect (@reader_view64 _ _))[ks].
by move/ctry_effect; apply=> cp /write2_effect.
Qed.
Lemma verify_effect p a coms b ids c cells d proofs v m r m' :
  eth_kzg_verify_cell_kzg_proof_batch api p a coms b ids c cells d proofs v m = CRet (r, m') ->
  call_effect m r m'.
Proof.
rewrite /eth_kzg_verify_cell_kzg_proof_batch.
move/(reader_effect (@reader_assert _)) => [_] /(reader_effect (@reader_deref _))[x].
move/(reader_effect (@reader_vec _ _ _)) => [x1] /(reader_effect (@reader_view64 _ _))[x2].
move/(reader_effect (@reader_vec _ _ _)) => [x3] /(reader_effect (@reader_vec _ _ _))[x4].
move/(reader_effect (@reader_deref_bool _)) => [_] /ctry_effect; apply=> ok.
rewrite /cbind /cwrite; case E: store_bool => [m1|] // [<- <-].
by left; split=> //; exact: store_bool_keeps E.
Qed.

Lemma cmapE (A B : Type) (f : A -> B) (e : cM ctx A) m v m' : cmap f e m = CRet (v, m') ->
  exists2 a, e m = CRet (a, m') & v = f a.
Proof. by rewrite /cmap /cbind; case: (e m) => [[a m1]||] // [<- <-]; exists a. Qed.

Lemma exec_result c m r m' : c_exec api c m = CRet (VResult r, m') -> call_effect m r m'.
Proof.
case: c => [u n|p|p|p blob out|p blob oc op|p n cells k ids oc op|p a coms b ids c cells d proofs v];
  rewrite /c_exec => H; have [x E Er] := cmapE H; rewrite // in Er; case: Er => ->; [exact: commit_effect E|exact: compute_effect E|exact: recover_effect E|
  exact: verify_effect E].
Qed.
End Keeps.
