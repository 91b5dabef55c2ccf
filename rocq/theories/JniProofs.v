(** Lemmas about Jni.v. *)

From Coq Require Import ZArith NArith Init.Byte Strings.Byte Strings.String.
From mathcomp Require Import ssreflect ssrfun ssrbool eqtype ssrnat seq.
From Verif Require Import Base Bytes Eip7594 CApi Managed Jni SpecJni.
From mathcomp Require Import zify_ssreflect.

Set Implicit Arguments.
Unset Strict Implicit.
Unset Printing Implicit Defensive.

(** ** Lists *)
Lemma oget_cat (T : Type) (h h' : seq T) a x : oget h a = Some x -> oget (h ++ h') a = Some x.
Proof. by elim: h a => [|y h IH] [|a] //=; exact: IH. Qed.
Lemma oget_cat_at (T : Type) (h h' : seq T) i : oget (h ++ h') (size h + i) = oget h' i.
Proof. by elim: h => [|y h IH]. Qed.
Lemma replace_at_cat (T : Type) (h h' : seq T) i x :
  replace_at (h ++ h') (size h + i) x = h ++ replace_at h' i x.
Proof. by elim: h => [|y h IH] //=; rewrite IH. Qed.
Lemma oget_map (T U : Type) (f : T -> U) (l : seq T) i : oget (map f l) i = ssrfun.Option.map f (oget l i).
Proof. by elim: l i => [|x l IH] [|i] //=. Qed.
Lemma oget_size (T : Type) (l : seq T) i x : oget l i = Some x -> i < size l.
Proof. by case: (ltnP i (size l)) => // H; rewrite oget_none. Qed.

Fixpoint all_some (T : Type) (l : seq (option T)) : option (seq T) :=
  match l with
  | [::] => Some [::]
  | None :: _ => None
  | Some x :: l => ssrfun.Option.map (cons x) (all_some l)
  end.
Lemma all_some_map (T : Type) (l : seq T) : all_some (map Some l) = Some l.
Proof. by elim: l => [|x l IH] //=; rewrite IH. Qed.
Lemma all_someP (T : Type) (l : seq (option T)) l' : all_some l = Some l' -> l = map Some l'.
Proof.
elim: l l' => [|[x|] l IH] l' //=; first by case=> <-.
by case E: (all_some l) => [l0|] //= [<-]; rewrite (IH _ E).
Qed.

(** ** Values in heaps *)
Lemma value_bytes_cat h h' r v : value_bytes h r v -> value_bytes (h ++ h') r v.
Proof. by case: v => [b|] //= [a -> H]; exists a => //; exact: oget_cat. Qed.
Lemma values_bytes_cat h h' refs vs : values_bytes h refs vs -> values_bytes (h ++ h') refs vs.
Proof.
elim: refs vs => [|r refs IH] [|v vs] //= [H1 H2].
by split; [exact: value_bytes_cat|exact: IH].
Qed.
Lemma value_longs_cat h h' r v : value_longs h r v -> value_longs (h ++ h') r v.
Proof. by case: v => [b|] //= [a -> H]; exists a => //; exact: oget_cat. Qed.
Lemma value_arrays_cat h h' r v : value_arrays h r v -> value_arrays (h ++ h') r v.
Proof.
case: v => [l|] //= [a [refs [-> H1 H2]]]; exists a, refs.
by split=> //; [exact: oget_cat|exact: values_bytes_cat].
Qed.
Lemma value_cap_cat h h' r vc vp : value_cap h r vc vp -> value_cap (h ++ h') r vc vp.
Proof.
move=> [a [rc [rp [-> H1 H2 H3]]]]; exists a, rc, rp.
by split=> //; [exact: oget_cat|exact: value_arrays_cat|exact: value_arrays_cat].
Qed.
Lemma size_values h refs vs : values_bytes h refs vs -> size refs = size vs.
Proof. by elim: refs vs => [|r refs IH] [|v vs] //= [_ /IH ->]. Qed.

(** ** The monad *)
Section Monad.
Variables (err : Type).
Local Notation jerror := (jerror err).

Lemma jq_ok (A B : Type) (x : jM (result A jerror)) (k : A -> jM (result B jerror)) s a s' :
  x s = JRet (Ok a) s' -> jq x k s = k a s'.
Proof. by move=> H; rewrite /jq /jbind H. Qed.
Lemma jq_err (A B : Type) (x : jM (result A jerror)) (k : A -> jM (result B jerror)) s e s' :
  x s = JRet (Err e) s' -> jq x k s = JRet (Err e) s'.
Proof. by move=> H; rewrite /jq /jbind H. Qed.
Lemma jq_panic (A B : Type) (x : jM (result A jerror)) (k : A -> jM (result B jerror)) s :
  x s = JPanic -> jq x k s = JPanic.
Proof. by move=> H; rewrite /jq /jbind H. Qed.

(** *** Input *)
Lemma convert_byte_arrayE h n p r v : value_bytes h r v ->
  convert_byte_array err r (MkJst h n p) =
  JRet (if v is Some b then Ok b else Err (EJni (NullPtr ConvertByteArray))) (MkJst h n p).
Proof. by case: v => [b|] /=; [case=> a -> H; rewrite /convert_byte_array /look /= H|move->]. Qed.

Lemma jlongarrayE h n p r v : value_longs h r v ->
  jlongarray err r (MkJst h n p) =
  JRet (if v is Some l then Ok (map as_u64 l) else Err (EJni (NullPtr GetArrayLength))) (MkJst h n p).
Proof.
case: v => [l|] /= H; last by rewrite H.
case: H => a -> H; rewrite /jlongarray /jq /jbind /get_array_length /look /= H.
by rewrite /get_long_array_region /look /= H leqnn take_size.
Qed.

Definition null_element : jerror := EJni (NullPtr GetArrayLength).
Lemma array_elements h refs0 a refs vs n p : oget h a = Some (OArrays (refs0 ++ refs)) -> values_bytes h refs vs ->
  exists2 n', 
   jmapM (fun i =>
    jq (get_object_array_element err (Some a) i) (fun inner_array =>
    jq (get_array_length err inner_array) (fun inner_len =>
    get_byte_array_region err inner_array inner_len))) (iota (size refs0) (size refs)) (MkJst h n p) =
   JRet (if all_some vs is Some bs then Ok bs else Err null_element) (MkJst h n' p) &
   all_some vs -> n' = n + size vs.
Proof.
elim: refs refs0 vs n => [|r refs IH] refs0 [|v vs] n //= Ha.
  by move=> _; exists n => //; rewrite addn0.
case=> Hv Hvs.
have E : get_object_array_element err (Some a) (size refs0) (MkJst h n p) = JRet (Ok r) (MkJst h n.+1 p).
  rewrite /get_object_array_element /jq /jbind /look /= Ha.
  by have := oget_cat_at refs0 (r :: refs) 0; rewrite addn0 => ->.
case: v Hv => [b|] /= Hv; last first.
  rewrite Hv in E; exists n.+1 => //.
  rewrite (@jq_err _ _ _ _ _ null_element (MkJst h n.+1 p)) //.
  by rewrite (jq_ok _ E).
case: Hv => x Hr Hx.
have [n' E' Hn] := IH (rcons refs0 r) vs n.+1 ltac:(by rewrite cat_rcons) Hvs.
exists n'; last by case: (all_some vs) Hn => //= l /(_ isT) -> _; rewrite addSnnS.
rewrite (@jq_ok _ _ _ _ _ b (MkJst h n.+1 p)); last first.
  rewrite (jq_ok _ E) Hr /jq /jbind /get_array_length /get_byte_array_region /look /= Hx /= Hx.
  by rewrite leqnn take_size.
rewrite size_rcons in E'; case A: (all_some vs) E' => [l|] E' /=.
  by rewrite (jq_ok _ E').
by rewrite (jq_err _ E').
Qed.

Definition flat_arrays (v : option (seq (option (seq byte)))) : option (seq (seq byte)) :=
  if v is Some l then all_some l else None.
Lemma arrays_in h n p r v : value_arrays h r v ->
  exists2 n', jobject_array_to_2d_byte_array err r (MkJst h n p) =
    JRet (if flat_arrays v is Some bs then Ok bs else Err null_element) (MkJst h n' p) &
    forall l, flat_arrays v = Some l -> n' = n + size l.
Proof.
case: v => [l|] /= H; last by rewrite H; exists n.
case: H => a [refs [-> Ha Hv]]; rewrite /jobject_array_to_2d_byte_array.
rewrite (@jq_ok _ _ _ _ _ (size refs) (MkJst h n p)); last by rewrite /get_array_length /look /= Ha.
have [n' -> Hn] := @array_elements h [::] a refs l n p Ha Hv.
by exists n' => // l' E; rewrite Hn ?E //; rewrite (all_someP E) size_map.
Qed.

(** *** Output *)
Lemma array_loop h0 done rest refs n p : 
  jfor (fun i x => jq (byte_array_from_slice err x) (fun a => set_object_array_element err (Some (size h0).+1) i a))
    (size refs) rest
    (MkJst (h0 ++ [:: OBytes [::]; OArrays (refs ++ nseq (size rest) (Some (size h0)))] ++ map OBytes done) n p) =
  JRet (Ok tt) (MkJst (h0 ++ [:: OBytes [::];
      OArrays (refs ++ map Some (iota ((size h0).+2 + size done) (size rest)))] ++ map OBytes (done ++ rest))
    (n + size rest) p).
Proof.
elim: rest done refs n => [|x rest IH] done refs n /=; first by rewrite !cats0 addn0.
rewrite (@jq_ok _ _ _ _ _ tt (MkJst (h0 ++ [:: OBytes [::]; OArrays (rcons refs (Some ((size h0).+2 + size done)) ++ nseq (size rest) (Some (size h0)))] ++ map OBytes (rcons done x)) n.+1 p)).
  have := IH (rcons done x) (rcons refs (Some ((size h0).+2 + size done))) n.+1.
  by rewrite !size_rcons => ->; rewrite !cat_rcons addnS -(addSnnS n).
rewrite /jq /jbind /byte_array_from_slice /new /set_object_array_element /=.
rewrite rcons_cat !rcons_cons -map_rcons.
have -> : (size h0).+1 = size h0 + 1 by rewrite addn1.
rewrite oget_cat_at /= [size (refs ++ _)]size_cat /= size_nseq.
have -> : (size refs < size refs + (size rest).+1)%N by lia.
congr (JRet _ (MkJst _ _ _)); rewrite replace_at_cat /=; congr (_ ++ _ :: OArrays _ :: _).
have := replace_at_cat refs (Some (size h0) :: nseq (size rest) (Some (size h0))) 0; rewrite addn0 => ->.
by rewrite cat_rcons /= size_cat /= size_map; congr (_ ++ Some _ :: _); lia.
Qed.

Definition arrays_block (k : nat) (l : seq (seq byte)) : seq jobj :=
  OBytes [::] :: OArrays (map Some (iota k.+2 (size l))) :: map OBytes l.
Lemma size_block k l : size (arrays_block k l) = (size l).+2.
Proof. by rewrite /= size_map. Qed.
Arguments arrays_block : simpl never.
Lemma array_of_slicesE h n p l :
  array_of_slices err l (MkJst h n p) =
  JRet (Ok (Some (size h).+1)) (MkJst (h ++ arrays_block (size h) l) (n.+2 + size l) p).
Proof.
rewrite /array_of_slices; set s := MkJst h n p.
rewrite (@jq_ok _ _ _ _ _ (Some (size h)) (MkJst (rcons h (OBytes [::])) n.+1 p)) //.
rewrite (@jq_ok _ _ _ _ _ (Some (size h).+1)
  (MkJst (h ++ [:: OBytes [::]; OArrays (nseq (size l) (Some (size h)))]) n.+2 p)); last first.
  by rewrite /new_object_array /new /= size_rcons -!cats1 -catA.
have := @array_loop h [::] l [::] n.+2 p; rewrite /= addn0.
by move=> H; rewrite (jq_ok _ H).
Qed.

Definition cap_block (k : nat) (cells proofs : seq (seq byte)) : seq jobj :=
  arrays_block k cells ++ arrays_block (k + (size cells).+2) proofs ++
  [:: OCap (Some k.+1) (Some (k + (size cells).+2).+1)].
Lemma cells_and_proofsE h n p cells proofs :
  cells_and_proofs_to_jobject err cells proofs (MkJst h n p) =
  JRet (Ok (Some (size h + (size cells).+2 + (size proofs).+2)))
    (MkJst (h ++ cap_block (size h) cells proofs) (n + (8 + size cells + size proofs)) p).
Proof.
rewrite /cells_and_proofs_to_jobject.
rewrite (@jq_ok _ _ _ _ _ tt (MkJst h n.+1 p)) //.
rewrite (@jq_ok _ _ _ _ _ tt (MkJst h n.+2 p)) //.
rewrite (@jq_ok _ _ _ _ _ tt (MkJst h n.+3 p)) //.
rewrite (jq_ok _ (@array_of_slicesE _ _ _ _)) (jq_ok _ (@array_of_slicesE _ _ _ _)).
rewrite /new_cells_and_proofs /new; congr (JRet (Ok (Some _)) (MkJst _ _ _)); rewrite /=.
- by rewrite !size_cat !size_block.
- by rewrite size_cat size_block -cats1 -!catA.
- by lia.
Qed.

End Monad.

(** ** The new objects *)
Lemma block_values h l k h' : k = size h ->
  [/\ oget (h ++ arrays_block k l ++ h') k.+1 = Some (OArrays (map Some (iota k.+2 (size l)))) &
      values_bytes (h ++ arrays_block k l ++ h') (map Some (iota k.+2 (size l))) (map Some l)].
Proof.
move=> ->; rewrite /arrays_block.
split; first by have := oget_cat_at h (arrays_block (size h) l ++ h') 1; rewrite addn1.
set A := OArrays _.
have : exists2 d, h ++ (OBytes [::] :: A :: map OBytes l) ++ h' = d ++ map OBytes l ++ h' & size d = (size h).+2.
  by exists (h ++ [:: OBytes [::]; A]); rewrite -?catA // size_cat addn2.
move=> [d -> <-] {A}; elim: l d => [|x l IH] d //=; split.
  by exists (size d) => //; have := oget_cat_at d (OBytes x :: map OBytes l ++ h') 0; rewrite addn0.
by have := IH (rcons d (OBytes x)); rewrite size_rcons cat_rcons.
Qed.

Lemma cap_block_new h cells proofs :
  new_cap h (h ++ cap_block (size h) cells proofs)
    (Some (size h + (size cells).+2 + (size proofs).+2)) cells proofs.
Proof.
set k := size h; set k2 := k + (size cells).+2.
have [C1 C2] := @block_values h cells k (arrays_block k2 proofs ++ [:: OCap (Some k.+1) (Some k2.+1)]) erefl.
have [P1 P2] := @block_values (h ++ arrays_block k cells) proofs k2 [:: OCap (Some k.+1) (Some k2.+1)]
  ltac:(by rewrite size_cat size_block).
rewrite -catA in P1 P2.
exists (cap_block k cells proofs), (k2 + (size proofs).+2), k.+1, k2.+1, (iota k.+2 (size cells)), (iota k2.+2 (size proofs)).
split=> //.
- split=> //; rewrite /cap_block !catA.
  have Sz : k2 + (size proofs).+2 = size ((h ++ arrays_block k cells) ++ arrays_block k2 proofs) + 0.
    by rewrite !size_cat !size_block addn0.
  by rewrite Sz oget_cat_at.
- rewrite /= !inE !mem_cat !mem_iota cat_uniq !iota_uniq /= andbT.
  rewrite !negb_or; repeat (apply/andP; split); try (apply/negP; lia); try (apply/eqP; lia); try lia.
  apply/hasPn => x Hx; apply/negP => Hy.
  by move: (Hx : x \in iota _ _) (Hy : x \in iota _ _); rewrite !mem_iota; lia.
- apply/allP => x; rewrite !inE !mem_cat !mem_iota /k2 /k; lia.
Qed.

Lemma new_cap_value h h' r cells proofs : new_cap h h' r cells proofs ->
  value_cap h' r (no_null cells) (no_null proofs).
Proof.
move=> [f [a [ac [ap [rc [rp [_ [-> Ha Hc Hp] [Vc Vp] _ _]]]]]]]; exists a, (Some ac), (Some ap).
by split=> //; [exists ac, (map Some rc)|exists ap, (map Some rp)].
Qed.
Lemma new_cap_cat h h' r cells proofs : new_cap h h' r cells proofs -> exists fresh, h' = h ++ fresh.
Proof. by move=> [f [a [ac [ap [rc [rp [-> _ _ _ _]]]]]]]; exists f. Qed.
