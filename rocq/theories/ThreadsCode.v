(** The code of the C interface in single steps does what CApi.v says. *)

From Coq Require Import NArith Init.Byte.
From mathcomp Require Import ssreflect ssrfun ssrbool eqtype ssrnat seq.
From Verif Require Import Base Bytes CMem Eip7594 CApi SpecC CProofs CThreads SpecThreads ThreadsProofs.
From mathcomp Require Import zify_ssreflect.

Set Implicit Arguments.
Unset Strict Implicit.
Unset Printing Implicit Defensive.

Lemma oget_mapm (A B : Type) (f : A -> B) (s : seq A) i : oget (map f s) i = option_map f (oget s i).
Proof. by elim: s i => [|x s IH] [|i] //=. Qed.

Section Code.
Variables (ctx err : Type) (api : rust_api ctx err).
Local Notation mem := (mem ctx).
Implicit Types m : mem.

Section Steps.
Variables (R W : places).
Definition ok (p : prog ctx) (m : mem) (r : c_value * mem) : Prop := alone p m = CRet r /\ stays_within R W p m.
Definition within (P Q : places) : Prop := forall b o, P b o -> Q b o.

Lemma ok_get b o k v m r : cell_of m b o = Some v -> either R W b o -> ok (k v) m r -> ok (PGet b o k) m r.
Proof. by move=> E H [H1 H2]; split; rewrite /= E //; split=> // w [<-]. Qed.
Lemma ok_assert (b : bool) k m r : b -> ok k m r -> ok (p_assert b k) m r.
Proof. by rewrite /p_assert => ->. Qed.

Lemma ok_cells n b o acc k l m r : size l = n -> (forall i, i < n -> cell_of m b (o + i) = oget l i) ->
  (forall i, i < n -> either R W b (o + i)) -> ok (k (rev acc ++ l)) m r -> ok (p_cells n b o acc k) m r.
Proof.
elim: n o acc l => [|n IH] o acc [|v l] //=; first by rewrite cats0.
move=> [S] C H Hk; have := C 0 isT; rewrite addn0 /= => C0; have := H 0 isT; rewrite addn0 => H0.
apply: (ok_get C0 H0); apply: (IH _ _ l) => // [i Hi|i Hi|].
- by rewrite addSn -addnS C.
- by rewrite addSn -addnS; apply: H.
by rewrite rev_cons cat_rcons.
Qed.

(** The n elements of a part of a block *)
Lemma ok_as (A : Type) (f : cell ctx -> option A) (mk : A -> cell ctx) p n (s : seq A) k m r :
  (forall x, f (mk x) = Some x) -> size s = n ->
  (n <> 0 -> exists b o, p = Addr b o /\ forall i, i < n -> cell_of m b (o + i) = option_map mk (oget s i)) ->
  within (region_of p n) (either R W) -> ok (k s) m r -> ok (p_as f p n k) m r.
Proof.
move=> Hf S C H Hk; rewrite /p_as /p_region.
case: (n =P 0) => [E|N].
  by have Es : s = [::]; [apply: size0nil; rewrite S|rewrite Es in Hk].
have [b [o [Ep Cs]]] := C N; rewrite Ep in H *.
have E l : all_as f (map mk l) = Some l by elim: l => //= x l ->; rewrite Hf.
apply: (@ok_cells _ _ _ _ _ (map mk s)).
- by rewrite size_map.
- by move=> i Hi; rewrite Cs // oget_mapm.
- by move=> i Hi; apply: H; rewrite /region_of /in_region /= eqxx; lia.
by rewrite /= E.
Qed.
End Steps.

(** ** Reading *)
Lemma slice_oget (T : Type) (s : seq T) off n i : i < n -> oget s (off + i) = oget (take n (drop off s)) i.
Proof.
elim: off s => [|off IH] s Hi; last by case: s => [|x s] //=; rewrite IH.
by rewrite drop0 add0n; elim: i n s Hi => [|i IH] [|n] [|x s] //= Hi; exact: IH.
Qed.
Lemma load_bytes_cells m p n s : load_bytes m p n = Some s -> exists b o,
  p = Addr b o /\ size s = n /\ forall i, i < n -> cell_of m b (o + i) = option_map (@CellByte ctx) (oget s i).
Proof.
case: p => [|b o] //=; case E: (live_block m b) => [[| |s0| | |]|] //; case: leqP => // L [<-]; exists b, o.
split=> //; split; first by rewrite size_takel // size_drop; lia.
by move=> i Hi; rewrite /cell_of E /= (slice_oget _ _ Hi).
Qed.
Lemma load_ptrs_cells m p n s : load_ptrs m p n = Some s -> exists b o,
  p = Addr b o /\ size s = n /\ forall i, i < n -> cell_of m b (o + i) = option_map (@CellPtr ctx) (oget s i).
Proof.
case: p => [|b o] //=; case E: (live_block m b) => [[| | |s0| |]|] //; case: leqP => // L [<-]; exists b, o.
split=> //; split; first by rewrite size_takel // size_drop; lia.
by move=> i Hi; rewrite /cell_of E /= (slice_oget _ _ Hi).
Qed.
Lemma load_u64s_cells m p n s : load_u64s m p n = Some s -> exists b o,
  p = Addr b o /\ size s = n /\ forall i, i < n -> cell_of m b (o + i) = option_map (@CellU64 ctx) (oget s i).
Proof.
case: p => [|b o] //=; case E: (live_block m b) => [[| | | |s0|]|] //; case: leqP => // L [<-]; exists b, o.
split=> //; split; first by rewrite size_takel // size_drop; lia.
by move=> i Hi; rewrite /cell_of E /= (slice_oget _ _ Hi).
Qed.

(** ** Binding *)
Lemma cbind_inv (A B : Type) (e : cM ctx A) (k : A -> cM ctx B) m r : cbind e k m = CRet r ->
  exists a m', e m = CRet (a, m') /\ k a m' = CRet r.
Proof. by rewrite /cbind; case E: (e m) => [[a m']| |] // H; exists a, m'. Qed.
Lemma cassert_inv b m a m' : cassert b m = CRet (a, m') -> b /\ m' = m.
Proof. by rewrite /cassert; case: b => // -[_ <-]. Qed.
Lemma cread_inv (A : Type) (f : mem -> option A) m a m' : cread f m = CRet (a, m') -> f m = Some a /\ m' = m.
Proof. by rewrite /cread; case: (f m) => // x [<- <-]. Qed.
Lemma cread_bytes m p n s m' : cread (fun m => load_bytes m p n) m = CRet (s, m') -> (exists b o,
  p = Addr b o /\ size s = n /\ forall i, i < n -> cell_of m b (o + i) = option_map (@CellByte ctx) (oget s i)) /\ m' = m.
Proof. by move=> H; have [H1 ->] := cread_inv H; split=> //; exact: load_bytes_cells H1. Qed.
Lemma cread_ptrs m p n s m' : cread (fun m => load_ptrs m p n) m = CRet (s, m') -> (exists b o,
  p = Addr b o /\ size s = n /\ forall i, i < n -> cell_of m b (o + i) = option_map (@CellPtr ctx) (oget s i)) /\ m' = m.
Proof. by move=> H; have [H1 ->] := cread_inv H; split=> //; exact: load_ptrs_cells H1. Qed.
Lemma cread_u64s m p n s m' : cread (fun m => load_u64s m p n) m = CRet (s, m') -> (exists b o,
  p = Addr b o /\ size s = n /\ forall i, i < n -> cell_of m b (o + i) = option_map (@CellU64 ctx) (oget s i)) /\ m' = m.
Proof. by move=> H; have [H1 ->] := cread_inv H; split=> //; exact: load_u64s_cells H1. Qed.
Lemma cwrite_inv (f : mem -> option mem) m a m' : cwrite f m = CRet (a, m') -> f m = Some m'.
Proof. by rewrite /cwrite; case: (f m) => // x [_ <-]. Qed.
Lemma crust_inv (A : Type) (x : outcome A) m a m' : crust x m = CRet (a, m') -> x = Ret a /\ m' = m.
Proof. by rewrite /crust; case: x => // y [<- <-]. Qed.

Section Read.
Variables (R W : places).
Local Notation ok := (ok R W).

Lemma array_ref n p m s m' : create_array_ref n p m = CRet (s, m') ->
  m' = m /\ size s = n /\
  forall k r, within (region_of p n) (either R W) -> ok (k s) m r -> ok (p_bytes p n k) m r.
Proof.
move=> /cbind_inv[s1 [m1 [H1 /cbind_inv[u [m2 [/cassert_inv[/eqP S ->] [<- <-]]]]]]].
move: H1; rewrite /create_slice_view_u8; case: (n =P 0) => [E|N].
  by move=> [Es <-]; split=> //; split=> // k r Hw Hk; apply: (@ok_as _ _ _ _ (@CellByte ctx) _ _ s1) => //; rewrite E.
move=> /cread_bytes[[b [o [Ep [_ C]]]] ->]; split=> //; split=> // k r Hw Hk.
by apply: (@ok_as _ _ _ _ (@CellByte ctx) _ _ s1) => // _; exists b, o.
Qed.
Lemma view_u64 n p m s m' : create_slice_view_u64 p n m = CRet (s, m') ->
  m' = m /\ forall k r, within (region_of p n) (either R W) -> ok (k s) m r -> ok (p_nums p n k) m r.
Proof.
rewrite /create_slice_view_u64; case: (n =P 0) => [E|N].
  by move=> [<- <-]; split=> // k r Hw Hk; apply: (@ok_as _ _ _ _ (@CellU64 ctx) _ _ [::]) => //; rewrite E.
move=> /cread_u64s[[b [o [Ep [S C]]]] ->]; split=> // k r Hw Hk.
by apply: (@ok_as _ _ _ _ (@CellU64 ctx) _ _ s) => // _; exists b, o.
Qed.
Lemma deref p m c m' : deref_ctx p m = CRet (c, m') ->
  m' = m /\ forall k r, within (region_of p 1) (either R W) -> ok (k c) m r -> ok (p_ctx p k) m r.
Proof.
move=> H0; have [H ->] := cread_inv H0; split=> // k r Hw Hk; move: H.
case: p Hw {H0} => [|b [|o]] //= Hw; case E: (live_block m b) => [[c0| | | | |]|] // [Ec]; rewrite Ec in E.
apply: (ok_get (v := CellCtx c)) => //; first by rewrite /cell_of E.
by apply: Hw; rewrite /region_of /in_region /= eqxx.
Qed.
Lemma deref_bool p m u m' : deref_mut_bool p m = CRet (u, m') ->
  m' = m /\ forall k r, within (region_of p 1) (either R W) -> ok k m r -> ok (p_bool p k) m r.
Proof.
move=> /cbind_inv[v [m1 [H1 [_ <-]]]]; have [H ->] := cread_inv H1; split=> // k r Hw Hk; move: H.
case: p Hw {H1} => [|b [|o]] //= Hw; case E: (live_block m b) => [[| | | | |v0]|] // _.
apply: (ok_get (v := CellBool _ v0)) => //; first by rewrite /cell_of E.
by apply: Hw; rewrite /region_of /in_region /= eqxx.
Qed.

Lemma rows_ok w ps m rows m' : cmapM (create_array_ref w) ps m = CRet (rows, m') ->
  m' = m /\ all (fun x => size x == w) rows /\
  forall acc k r, (forall i q, oget ps i = Some q -> within (region_of q w) (either R W)) ->
    ok (k (rev acc ++ rows)) m r -> ok (p_rows w ps acc k) m r.
Proof.
elim: ps rows m' => [|p ps IH] rows m' /=.
  by move=> [<- <-]; split=> //; split=> // acc k r _; rewrite cats0.
move=> /cbind_inv[row [m1 [H1 /cbind_inv[rest [m2 [H2 [<- <-]]]]]]]; have [Em [S H]] := array_ref H1.
rewrite Em in H2; have [-> [A H']] := IH _ _ H2; split=> //.
split; first by rewrite /= S eqxx.
move=> acc k r Hw Hk; apply: H; first exact: (Hw 0).
by apply: H' => [i q Hq|]; [apply: (Hw i.+1)|rewrite rev_cons cat_rcons].
Qed.

(** The memory at the start has the pointers of m. *)
Variable m0 : mem.
Definition same_ptrs (m : mem) : Prop :=
  forall b o q, cell_of m b o = Some (CellPtr _ q) -> cell_of m0 b o = Some (CellPtr _ q).

Lemma rows_region m p n w b o (ps : seq ptr) i q : same_ptrs m -> p = Addr b o -> size ps = n ->
  (forall i, i < n -> cell_of m b (o + i) = option_map (@CellPtr ctx) (oget ps i)) ->
  oget ps i = Some q -> within (region_of q w) (rows_of m0 p n w).
Proof.
move=> Hp -> S C Hq b' o' H; exists b, (o + i), q; split=> //.
  rewrite /region_of /in_region /= eqxx; suff: i < n by lia.
  by rewrite -S; case: ltnP => // L; rewrite oget_none in Hq.
apply: Hp; rewrite C ?Hq // -S; case: ltnP => // L; by rewrite oget_none in Hq.
Qed.

Lemma arrays_ok w p n m rows m' : ptr_ptr_to_vec_slice_const w p n m = CRet (rows, m') -> same_ptrs m ->
  m' = m /\ all (fun x => size x == w) rows /\
  forall k r, within (arrays_of m0 p n w) (either R W) -> ok (k rows) m r -> ok (p_arrays w p n k) m r.
Proof.
rewrite /ptr_ptr_to_vec_slice_const => H Hp; move: H; case: (n =P 0) => [E|N].
  move=> [<- <-]; split=> //; split=> // k r Hw Hk.
  by apply: (@ok_as _ _ _ _ (@CellPtr ctx) _ _ [::]) => // b o H; apply: Hw; left.
move=> /cbind_inv[ps [m1 [H1 H2]]]; have [[b [o [Ep [S C]]]] Em] := cread_ptrs H1; rewrite Em in H2.
have [-> [A H]] := rows_ok H2.
split=> //; split=> // k r Hw Hk.
apply: (@ok_as _ _ _ _ (@CellPtr ctx) _ _ ps) => //.
- by move=> _; exists b, o.
- by move=> b' o' H'; apply: Hw; left.
apply: H => // i q Hq b' o' H'; apply: Hw; right; exact: (rows_region Hp Ep S C Hq).
Qed.

(** ** Writing *)
Lemma put_byte m b o s x : live_block m b = Some (BBytes _ s) -> o < size s ->
  put m b o (CellByte _ x) = Some (set_nth None m b (Some (BBytes _ (set_nth "000"%byte s o x)))).
Proof. by move=> E L; rewrite /put E /= L. Qed.
Lemma live_set m b blk : live_block (set_nth None m b (Some blk)) b = Some blk.
Proof. by rewrite live_nth nth_set_nth /= eqxx. Qed.
Lemma set_set m b (x y : option (block ctx)) : set_nth None (set_nth None m b x) b y = set_nth None m b y.
Proof. by rewrite set_set_nth eqxx. Qed.
Lemma set_id m b blk : live_block m b = Some blk -> set_nth None m b (Some blk) = m.
Proof.
rewrite live_nth => E; have L : b < size m by case: ltnP E => // H; rewrite nth_default.
apply: (@eq_from_nth _ None); first by rewrite size_set_nth; lia.
by move=> i _; rewrite nth_set_nth /=; case: eqP => // ->.
Qed.
Lemma overwrite_cons (s : seq byte) o x data : o + size (x :: data) <= size s ->
  overwrite (set_nth "000"%byte s o x) o.+1 data = overwrite s o (x :: data).
Proof.
move=> /= L; have S : size (set_nth "000"%byte s o x) = size s by rewrite size_set_nth; lia.
apply: (@eq_from_nth _ "000"%byte); first by rewrite !size_overwrite // S; lia.
move=> i _; rewrite !nth_overwrite ?S //; last lia.
rewrite nth_set_nth /=; case: (ltngtP i o) => [L1|L1|->]; last first.
- by rewrite subnn /= ifT //; lia.
- by rewrite addSnnS [i - o](_ : _ = (i - o.+1).+1) //; lia.
by [].
Qed.
Lemma write_ok b data o m m' k r : store_bytes (Addr b o) data m = Some m' ->
  (forall i, i < size data -> W b (o + i)) -> ok k m' r -> ok (p_write b o data k) m r.
Proof.
elim: data o m => [|x data IH] o m /=; case E: (live_block m b) => [[| |s| | |]|] //; case: leqP => // L [Em'] Hw Hk.
  move: Em' Hk; rewrite /overwrite /= addn0 cat_take_drop => Em'.
  by move: (set_id E); rewrite Em' => ->.
have P : put m b o (CellByte _ x) = Some (set_nth None m b (Some (BBytes _ (set_nth "000"%byte s o x)))).
  by apply: put_byte E _; lia.
have [H1 H2] : ok (p_write b o.+1 data k) (set_nth None m b (Some (BBytes _ (set_nth "000"%byte s o x)))) r.
  apply: IH => //; last by move=> i Hi; rewrite addSn -addnS; apply: Hw.
  rewrite /= live_set ifT; last by rewrite size_set_nth; lia.
  by rewrite set_set overwrite_cons // Em'.
split; first by rewrite /= P.
by split; [have := Hw 0 isT; rewrite addn0|rewrite P => m2 [<-]].
Qed.
Lemma store_ok p data m m' k r : store_bytes p data m = Some m' ->
  within (region_of p (size data)) W -> ok k m' r -> ok (p_store p data k) m r.
Proof.
case: p => [|b o] // H Hw Hk; apply: (write_ok H) => // i Hi; apply: Hw.
by rewrite /region_of /in_region /= eqxx; lia.
Qed.
Lemma store_ptrs p data m m' : store_bytes p data m = Some m' -> same_ptrs m -> same_ptrs m'.
Proof.
case: p => [|b o] //=; case E: (live_block m b) => [[| |s| | |]|] //; case: leqP => // L [<-] H b' o' q.
rewrite /cell_of live_nth nth_set_nth /=; case: eqP => [->|_]; first by rewrite /=; case: (oget (overwrite s o data) o').
by rewrite -live_nth => Hq; apply: H; rewrite /cell_of.
Qed.
Lemma store_rows_ok w (pds : seq (ptr * seq byte)) m u m' k r :
  citer (fun pd => write_to_slice pd.1 pd.2) pds m = CRet (u, m') ->
  (forall i q d, oget pds i = Some (q, d) -> within (region_of q w) W /\ size d <= w) ->
  ok k m' r -> ok (p_store_rows pds k) m r.
Proof.
elim: pds m => [|[q d] pds IH] m /=; first by move=> [_ <-].
move=> /cbind_inv[u1 [m1 [/cwrite_inv H1 H2]]] Hw Hk; have [Hq Sd] := Hw 0 _ _ (erefl _).
apply: (store_ok H1); last by apply: (IH _ H2) => // i; exact: (Hw i.+1).
move=> b o H; apply: Hq; move: H; rewrite /region_of /in_region /=; case: q {H1 Hw} => // b' o'.
by case: eqP => //= _; lia.
Qed.
Lemma iter_ptrs (pds : seq (ptr * seq byte)) m u m' :
  citer (fun pd => write_to_slice pd.1 pd.2) pds m = CRet (u, m') -> same_ptrs m -> same_ptrs m'.
Proof.
elim: pds m => [|[q d] pds IH] m /=; first by move=> [_ <-].
by move=> /cbind_inv[u1 [m1 [/cwrite_inv H1 /IH H2]]] H; apply: H2; exact: store_ptrs H1 H.
Qed.
Lemma oget_zip (A B : Type) (s : seq A) (t : seq B) i x y : oget (zip s t) i = Some (x, y) ->
  oget s i = Some x /\ oget t i = Some y.
Proof. by elim: s t i => [|a s IH] [|b t] [|i] //=; [move=> [-> ->]|exact: IH]. Qed.
Lemma oget_all (T : Type) (P : pred T) (s : seq T) i x : all P s -> oget s i = Some x -> P x.
Proof. by elim: s i => [|a s IH] [|i] //= /andP[Pa Ps]; [move=> [<-]|exact: IH]. Qed.
Lemma store_arrays_ok w n p data m u m' k r : write_to_2d_slice n p data m = CRet (u, m') -> same_ptrs m ->
  all (fun x => size x == w) data -> within (region_of p n) (either R W) -> within (rows_of m0 p n w) W ->
  same_ptrs m' /\ (ok k m' r -> ok (p_store_arrays n p data k) m r).
Proof.
move=> /cbind_inv[ps [m1 [H1 H2]]] Hp A Hr Hw; move: H1; rewrite /ptr_ptr_to_slice_slice_mut.
case: (n =P 0) => [E|N].
  move=> [Eps Em]; move: H2; rewrite -Eps -Em.
  have -> : zip ([::] : seq ptr) data = [::] by case: (data).
  move=> [_ <-]; split=> // Hk.
  by apply: (@ok_as _ _ _ _ (@CellPtr ctx) _ _ [::]) => //; case: (data).
move=> /cread_ptrs[[b [o [Ep [S C]]]] Em]; rewrite Em in H2; split; first exact: iter_ptrs H2 Hp.
move=> Hk; apply: (@ok_as _ _ _ _ (@CellPtr ctx) _ _ ps) => //; first by move=> _; exists b, o.
apply: (@store_rows_ok w _ _ _ _ _ _ H2 _ Hk) => i q d Hz; have [Hq Hd] := oget_zip Hz; split.
  by move=> b' o' H; apply: Hw; exact: (rows_region Hp Ep S C Hq).
by have /eqP -> := oget_all A Hd.
Qed.

(** ** Results *)
Lemma try_ok (A : Type) (x : outcome (result A err)) (kc : A -> cM ctx c_result) kp m v m' :
  cmap VResult (ctry api x kc) m = CRet (v, m') ->
  (forall a, x = Ret (Ok a) -> cmap VResult (kc a) m = CRet (v, m') -> ok (kp a) m (v, m')) ->
  ok (p_try api x kp) m (v, m').
Proof.
move=> /cbind_inv[r [m1 [/cbind_inv[y [m2 [H1 H]]] E]]] Hk; have [Ex Em] := crust_inv H1.
rewrite Em in H; case: y H Ex {H1 Em} => [a|e] H Ex; rewrite Ex /=.
  by apply: Hk => //; rewrite /cmap /cbind H.
move: H => /cbind_inv[u [m3 [H2 H3]]]; have [N Em3] := cassert_inv H2; rewrite Em3 in H3.
by rewrite N; split=> //=; move: H3 E => [<- <-] [<- <-].
Qed.
Lemma cmap_bind (A B C : Type) (f : B -> C) (e : cM ctx A) (k : A -> cM ctx B) m r :
  cmap f (cbind e k) m = CRet r -> exists a m', e m = CRet (a, m') /\ cmap f (k a) m' = CRet r.
Proof.
rewrite /cmap => /cbind_inv[b [m1 [/cbind_inv[a [m2 [H1 H2]]] H]]].
by exists a, m2; split=> //; rewrite /cbind H2.
Qed.
Lemma done_ok m v m' : cmap VResult (@cret ctx _ with_ok) m = CRet (v, m') -> ok POk m (v, m').
Proof. by move=> [<- <-]; split. Qed.
End Read.
End Code.
