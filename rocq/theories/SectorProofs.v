(** Proofs about N-fermion sectors *)
From Coq Require Import NArith ZArith List Bool Arith Sorted Lia.
From Verif Require Import BitsModel BitsSpec BitsProofs RankModel RankSpec RankProofs ExprModel ExprSpec ExprOrder HSModel HSSpec HSEnum HSProofs HSMain PropHS
  PropRank LOpModel LOpSpec SectorModel SectorSpec.
Import ListNotations.
Open Scope N_scope.
Open Scope list_scope.

(** ** nested loops *)
Lemma count_to_nth d k : nth_error (count_to d) k = if (k <? N.to_nat d)%nat then Some (N.of_nat k) else None.
Proof.
  unfold count_to. destruct (Nat.ltb_spec k (N.to_nat d)).
  - rewrite nth_error_map. rewrite (nth_error_nth' _ 0%nat) by (rewrite seq_length; auto). rewrite seq_nth by auto. reflexivity.
  - apply nth_error_None. rewrite map_length, seq_length. auto.
Qed.
Lemma count_to_length d : length (count_to d) = N.to_nat d.
Proof. unfold count_to. now rewrite map_length, seq_length. Qed.
Lemma count_to_In d x : In x (count_to d) <-> x < d.
Proof.
  unfold count_to. rewrite in_map_iff. split.
  - intros [k [<- i]]. apply in_seq in i. lia.
  - intros h. exists (N.to_nat x). split; [lia|]. apply in_seq. lia.
Qed.
Lemma blocks_length {A B C} (f : A -> B -> C) (us : list A) (ds : list B) :
  length (flat_map (fun u => map (f u) ds) us) = (length us * length ds)%nat.
Proof. induction us; cbn; auto. now rewrite app_length, map_length, IHus. Qed.
Lemma blocks_nth {A B C} (f : A -> B -> C) (us : list A) (ds : list B) i x :
  nth_error (flat_map (fun u => map (f u) ds) us) i = Some x ->
  exists r q u d, i = (r * length ds + q)%nat /\ (q < length ds)%nat /\ nth_error us r = Some u /\ nth_error ds q = Some d /\ x = f u d.
Proof.
  revert i. induction us as [|u us IH]; intros i; cbn; [destruct i; discriminate|].
  destruct (Nat.lt_ge_cases i (length ds)) as [h|h].
  - rewrite nth_error_app1 by (rewrite map_length; auto). rewrite nth_error_map. intros E.
    destruct (nth_error ds i) as [d|] eqn:Ed; [|discriminate]. cbn in E. inversion E; subst.
    exists 0%nat, i, u, d. cbn. repeat split; auto.
  - rewrite nth_error_app2 by (rewrite map_length; auto). rewrite map_length. intros E.
    destruct (IH _ E) as [r [q [u' [d [E1 [E2 [E3 [E4 E5]]]]]]]]. exists (Datatypes.S r), q, u', d. repeat split; auto. cbn. lia.
Qed.
Lemma blocks_In {A B C} (f : A -> B -> C) (us : list A) (ds : list B) x :
  In x (flat_map (fun u => map (f u) ds) us) <-> exists u d, In u us /\ In d ds /\ x = f u d.
Proof.
  rewrite in_flat_map. split.
  - intros [u [Hu H]]. apply in_map_iff in H. destruct H as [d [<- Hd]]. eauto.
  - intros [u [d [Hu [Hd ->]]]]. exists u. split; auto. now apply in_map.
Qed.
(** a list whose elements know their positions has no repetitions *)
Lemma numbered_nodup {A} (xs : list A) (f : A -> option N) :
  (forall i x, nth_error xs i = Some x -> f x = Some (N.of_nat i)) -> NoDup xs.
Proof.
  intros H. apply NoDup_nth_error. intros i j hi E. destruct (nth_error xs i) as [x|] eqn:Ei.
  - symmetry in E. apply H in Ei, E. rewrite Ei in E. inversion E. lia.
  - apply nth_error_None in Ei. lia.
Qed.

Section Foreach.
Context {V S : Type} (so : scalar_ops S) (sv : sv_ops V S).
Lemma foreach_calls_spec (v : V) (amp : N -> S) xs : forall k,
  (forall j, (j < length xs)%nat -> sv_get sv v (k + N.of_nat j) = Some (amp (k + N.of_nat j))) ->
  foreach_calls so sv v xs k = Some (nonzero_pairs so amp xs k).
Proof.
  induction xs as [|x t IH]; intros k H; cbn [foreach_calls nonzero_pairs]; auto.
  pose proof (H 0%nat ltac:(cbn; lia)) as H0. change (N.of_nat 0) with 0 in H0. rewrite N.add_0_r in H0. rewrite H0.
  rewrite (IH (k + 1)). { now destruct (s_is_zero so (amp k)). }
  intros j hj. replace (k + 1 + N.of_nat j) with (k + N.of_nat (Datatypes.S j)) by lia. apply H. cbn; lia.
Qed.
End Foreach.

(** ** Fermionic modes *)
Section Modes.
Context {I : Type} (io : index_ops I) (Hio : index_order io).
Notation es := (espace I).
Definition no_fermion (l : list es) : Prop := Forall (fun e => es_alg e <> (-3)%Z) l.
Lemma es_alg_f (e : es) : es_alg e = (-3)%Z -> exists i, e = ESFermion i.
Proof. destruct e; cbn; intros; try discriminate; eauto. Qed.
Lemma modes_split l : StronglySorted (es_before io) l -> exists rest, l = map ESFermion (modes l) ++ rest /\ no_fermion rest.
Proof.
  induction 1 as [|e t St [rest [E F]] Fa].
  - exists []. split; auto. constructor.
  - destruct e as [i|d i|m i].
    + exists rest. split; auto. cbn. f_equal. exact E.
    + exists (ESBoson d i :: t). assert (N0 : no_fermion t).
      { unfold no_fermion. eapply Forall_impl; [|exact Fa]. intros x B. inversion B; discriminate. }
      change (modes (ESBoson d i :: t)) with (modes t). assert (modes t = []) as ->.
      { clear - N0. induction N0 as [|e t h _ IH]; auto. destruct e; cbn in h; try congruence; exact IH. }
      split; auto. constructor; auto. discriminate.
    + exists (ESSpin m i :: t). assert (N0 : no_fermion t).
      { unfold no_fermion. eapply Forall_impl; [|exact Fa]. intros x B. inversion B; discriminate. }
      change (modes (ESSpin m i :: t)) with (modes t). assert (modes t = []) as ->.
      { clear - N0. induction N0 as [|e t h _ IH]; auto. destruct e; cbn in h; try congruence; exact IH. }
      split; auto. constructor; auto. discriminate.
Qed.
Lemma total_fermions (ms : list I) : total_bits (map ESFermion ms) = length ms.
Proof. induction ms; cbn; auto. Qed.
Lemma total_app (a b : list es) : total_bits (a ++ b) = (total_bits a + total_bits b)%nat.
Proof. induction a; cbn; auto. lia. Qed.
Lemma modes_le (l : list es) : (length (modes l) <= total_bits l)%nat.
Proof. induction l as [|e t IH]; [apply le_n|]. unfold modes in *. cbn [flat_map total_bits]. rewrite app_length. destruct e; cbn [length es_nbits]; lia. Qed.
Lemma seg_no_fermion (l : list es) : no_fermion l -> forall s, seg (-3) l s = None.
Proof.
  intros F s. apply seg_none. intros [x [Hx E]]. unfold no_fermion in F. rewrite Forall_forall in F. now apply (F x).
Qed.
Lemma seg_fermions (ms : list I) rest : no_fermion rest -> forall s,
  seg (-3) (map ESFermion ms ++ rest) s = match ms with [] => None | _ => Some (s, s + Z.of_nat (length ms) - 1)%Z end.
Proof.
  intros F. induction ms as [|i ms IH]; intros s; cbn [map app seg]; [now apply seg_no_fermion|].
  cbn [es_alg Z.eqb Pos.eqb]. change (es_nbits (ESFermion i)) with 1%nat. rewrite IH. destruct ms as [|j ms]; cbn [ojoin].
  - f_equal; f_equal; cbn; lia.
  - unfold join; cbn [fst snd length]. f_equal. destruct (Z.ltb_spec (s + Z.of_nat 1) s), (Z.ltb_spec (s + Z.of_nat 1 - 1) (s + Z.of_nat 1 + Z.of_nat (Datatypes.S (length ms)) - 1)); f_equal; lia.
Qed.
Lemma modes_nodup l : StronglySorted (es_before io) l -> NoDup (modes l).
Proof.
  induction 1 as [|e t St IH Fa]; cbn; [constructor|]. destruct e as [i|d i|m i]; cbn; auto. constructor; auto.
  intros Hi. unfold modes in Hi. apply in_flat_map in Hi. destruct Hi as [e [He Hi]]. destruct e as [j| |]; try (destruct Hi; fail).
  destruct Hi as [->|[]]. rewrite Forall_forall in Fa. specialize (Fa _ He). inversion Fa; subst.
  unfold idx_lt in *. pose proof (gen_before_irrefl io Hio (GFermion true i)) as X. apply X. now constructor.
Qed.

(** occupation of the k-th mode *)
Lemma occupied_nth (ms : list I) rest k i x : NoDup ms -> nth_error ms k = Some i -> forall s,
  occupied_from io (map ESFermion ms ++ rest) s x i = N.testbit x (N.of_nat (s + k)).
Proof.
  intros ND E s. revert k E s. induction ms as [|j ms IH]; intros k E s; [destruct k; discriminate|].
  inversion ND; subst. destruct k as [|k]; cbn in E.
  - inversion E; subst. cbn [map app occupied_from]. rewrite (i_eqb_refl io Hio). now rewrite Nat.add_0_r.
  - cbn [map app occupied_from]. destruct (i_eq io i j) eqn:Q.
    + apply (sto_eq _ _ _ Hio) in Q. subst. exfalso. apply H1. eapply nth_error_In; eauto.
    + change (es_nbits (ESFermion j)) with 1%nat. rewrite IH with (k := k); auto. f_equal. lia.
Qed.
End Modes.

(** the weight of the lowest M bits *)
Lemma ones_mod_length x M : length (filter (fun k => N.testbit x (N.of_nat k)) (seq 0 M)) = weight (x mod 2 ^ N.of_nat M).
Proof.
  unfold weight, ones. set (y := x mod 2 ^ N.of_nat M).
  assert (E : filter (fun k => N.testbit x (N.of_nat k)) (seq 0 M) = filter (fun k => N.testbit y (N.of_nat k)) (seq 0 M)).
  { apply filter_ext_in. intros k i. apply in_seq in i. unfold y. rewrite N.mod_pow2_bits_low by lia. reflexivity. }
  rewrite E. clear E.
  assert (hy : forall k, (M <= k)%nat -> N.testbit y (N.of_nat k) = false) by (intros k hk; unfold y; apply N.mod_pow2_bits_high; lia).
  assert (hs : forall k, (N.size_nat y <= k)%nat -> N.testbit y (N.of_nat k) = false).
  { intros k hk. destruct (N.eq_dec y 0) as [->|ny]; [apply N.bits_0|]. apply N.bits_above_log2.
    pose proof (N.size_log2 y ny) as Q. assert (N.of_nat (N.size_nat y) = N.size y) by (clear; destruct y as [|p]; [reflexivity|cbn; induction p; cbn; lia]). lia. }
  assert (G : forall a b, (a <= b)%nat -> (forall k, (a <= k)%nat -> N.testbit y (N.of_nat k) = false) ->
    filter (fun k => N.testbit y (N.of_nat k)) (seq 0 b) = filter (fun k => N.testbit y (N.of_nat k)) (seq 0 a)).
  { intros a b hab H. replace b with (a + (b - a))%nat by lia. rewrite seq_app, filter_app. cbn.
    assert (filter (fun k => N.testbit y (N.of_nat k)) (seq a (b - a)) = []) as ->; [|now rewrite app_nil_r].
    assert (Z0 : forall l, (forall c, In c l -> (a <= c)%nat) -> filter (fun k => N.testbit y (N.of_nat k)) l = []).
    { induction l as [|c l IH]; intros Q; cbn; auto. rewrite H by (apply Q; now left). apply IH. intros; apply Q; now right. }
    apply Z0. intros c i. apply in_seq in i. lia. }
  destruct (Nat.le_ge_cases M (N.size_nat y)); [rewrite (G M (N.size_nat y))|rewrite (G (N.size_nat y) M)]; auto.
Qed.
