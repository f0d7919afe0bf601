(** * C90: structure constants (var_number) and linear functions of generators *)
From Coq Require Import List ZArith QArith Bool Lia.
From Verif Require Import ExprModel LfModel LfSpec.
Import ListNotations.
Open Scope nat_scope.
Open Scope list_scope.

(** == compares the kind and the stored numbers; it is an equivalence, is never coarser than equality of
    the numbers meant, but is finer: 1 and 2/2 differ. is_zero() is exact. *)
Theorem C90_numbers :
  (forall v w, vn_eqb v w = true <->
     match v, w with
     | VInt i, VInt j => i = j
     | VRat p q, VRat r s => p = r /\ q = s
     | VReal x, VReal y => (x == y)%Q
     | _, _ => False
     end) /\
  (forall v, vn_eqb v v = true) /\
  (forall v w, vn_eqb v w = vn_eqb w v) /\
  (forall u v w, vn_eqb u v = true -> vn_eqb v w = true -> vn_eqb u w = true) /\
  (forall v w x y, vn_eqb v w = true -> number_of v = Some x -> number_of w = Some y -> (x == y)%Q) /\
  (forall v x, number_of v = Some x -> (vn_is_zero v = true <-> (x == 0)%Q)) /\
  (exists v w x, vn_eqb v w = false /\ number_of v = Some x /\ exists y, number_of w = Some y /\ (x == y)%Q).
Proof.
  assert (E : forall v w, vn_eqb v w = true <->
     match v, w with
     | VInt i, VInt j => i = j
     | VRat p q, VRat r s => p = r /\ q = s
     | VReal x, VReal y => (x == y)%Q
     | _, _ => False
     end).
  { intros [i|p q|x] [j|r s|y]; simpl; try (split; [discriminate|tauto]).
    - apply Z.eqb_eq.
    - rewrite andb_true_iff, !Z.eqb_eq. reflexivity.
    - apply Qeq_bool_iff. }
  repeat apply conj.
  - exact E.
  - intros v. apply E. destruct v; auto. reflexivity.
  - intros v w. apply eq_true_iff_eq. rewrite !E. destruct v, w; try tauto; try (split; intros; subst; auto; fail).
    + split; intros [-> ->]; auto.
    + split; intros h; symmetry; exact h.
  - intros u v w. rewrite !E. destruct u, v, w; try tauto; try congruence.
    + intros [-> ->] [-> ->]. auto.
    + intros a b. exact (Qeq_trans _ _ _ a b).
  - intros v w x y h. apply E in h. destruct v as [i|p q|a], w as [j|r s|b]; try tauto; simpl.
    + subst. intros [= <-] [= <-]. reflexivity.
    + destruct h as [<- <-]. destruct (Z.eqb q 0); [discriminate|]. intros [= <-] [= <-]. reflexivity.
    + intros [= <-] [= <-]. exact h.
  - intros [i|p q|a] x; simpl.
    + intros [= <-]. rewrite Z.eqb_eq. unfold Qeq; simpl. lia.
    + destruct (Z.eqb_spec q 0) as [|n]; [discriminate|]. intros [= <-]. rewrite Z.eqb_eq.
      unfold Qdiv, Qeq, Qmult, Qinv, inject_Z; simpl. destruct q; [tauto| |]; simpl; lia.
    + intros [= <-]. apply Qeq_bool_iff.
  - exists (VInt 1), (VRat 2 2), (inject_Z 1). split; [reflexivity|]. split; [reflexivity|].
    eexists. split; [reflexivity|]. reflexivity.
Qed.
Print Assumptions C90_numbers.

Section P.
Context {G : Type}.
Implicit Types f : linfun G.

Lemma read_terms_spec f args : (forall a, In a args ->
    (forall k, fst a = GOwn k -> k < length (terms f)) /\ (forall k, snd a = NCoef k -> k < length (terms f))) ->
  exists ts, read_terms f args = Some ts /\
    Forall2 (fun a t => read_g f (fst a) = Some (fst t) /\ read_n f (snd a) = Some (snd t)) args ts.
Proof.
  induction args as [|[g a] t IH]; intros H.
  - exists []. split; [reflexivity|constructor].
  - destruct IH as (ts & E & F); [intros b h; apply H; right; exact h|].
    destruct (H (g, a) (or_introl eq_refl)) as [h1 h2]. simpl in h1, h2.
    assert (exists x, read_g f g = Some x) as [x Ex].
    { destruct g as [x|k]; [exists x; reflexivity|]. simpl. specialize (h1 k eq_refl).
      destruct (nth_error (terms f) k) as [p|] eqn:En; [eexists; reflexivity|]. apply nth_error_None in En. lia. }
    assert (exists x, read_n f a = Some x) as [v Ev].
    { destruct a as [v| |k]; [exists v; reflexivity|eexists; reflexivity|]. simpl. specialize (h2 k eq_refl).
      destruct (nth_error (terms f) k) as [p|] eqn:En; [eexists; reflexivity|]. apply nth_error_None in En. lia. }
    exists ((x, v) :: ts). simpl. rewrite Ex, Ev, E. split; [reflexivity|]. constructor; [split; assumption|exact F].
Qed.

Lemma assign_ok f c : (forall k, c = NCoef k -> k < length (terms f)) ->
  exists v, read_n f c = Some v /\ assign_const (mk_lfrun f true) c = Ok (mk_lfrun (mk_linfun v (terms f)) true).
Proof.
  intros H. destruct c as [v| |k]; [exists v; repeat split|exists (const_term f); repeat split|].
  specialize (H k eq_refl). unfold assign_const, run_n. simpl.
  destruct (nth_error (terms f) k) as [p|] eqn:En; [exists (snd p); repeat split|]. apply nth_error_None in En. lia.
Qed.

Definition arg_value (c : var_number) (a : narg) (v : var_number) : Prop :=
  a = NVal v \/ a = NConst /\ v = c.

Lemma construct_ok args : forall c ts b, (forall a, In a args -> ~ refers_to_terms a) ->
  exists new, construct_impl (mk_lfrun (mk_linfun c ts) b) args = Ok (mk_lfrun (mk_linfun c (ts ++ new)) b) /\
    Forall2 (fun (a : garg G * narg) (t : G * var_number) => fst a = GVal (fst t) /\ arg_value c (snd a) (snd t)) args new.
Proof.
  induction args as [|[g a] t IH]; intros c ts b H.
  - exists []. simpl. rewrite app_nil_r. split; [reflexivity|constructor].
  - pose proof (H (g, a) (or_introl eq_refl)) as h.
    destruct g as [x|k]; [|elim h; left; exists k; reflexivity].
    assert (exists v, run_n (mk_lfrun (mk_linfun c ts) b) a = Ok v /\ arg_value c a v) as (v & Ev & Av).
    { destruct a as [v| |k]; [exists v; split; [reflexivity|left; reflexivity]
        |exists c; split; [reflexivity|right; split; reflexivity]|elim h; right; exists k; reflexivity]. }
    destruct (IH c (ts ++ [(x, v)]) b) as (new & E & F); [intros b' hb; apply H; right; exact hb|].
    exists ((x, v) :: new). cbn [construct_impl run_g]. cbn [rbind]. rewrite Ev. cbn [rbind l_now l_live const_term terms].
    rewrite E, <- app_assoc. split; [reflexivity|]. constructor; [split; [reflexivity|exact Av]|exact F].
Qed.

Lemma construct_bad args : forall f a, In a args -> refers_to_terms a ->
  construct_impl (mk_lfrun f false) args = Bad.
Proof.
  induction args as [|[g a] t IH]; intros f b h r; [destruct h|].
  destruct g as [x|k]; [|reflexivity].
  cbn [construct_impl run_g rbind].
  destruct h as [<-|h].
  - destruct r as [[k e]|[k e]]; simpl in e; [discriminate e|subst a]. reflexivity.
  - destruct (run_n (mk_lfrun f false) a) as [v| |] eqn:E; cbn [rbind].
    + apply (IH _ b h r).
    + unfold run_n in E. destruct a; simpl in E; discriminate E.
    + reflexivity.
Qed.

(** every form of set() gives the object the values its arguments have when it is called; the variadic
    form under the condition that no argument refers to the object's own terms or, as a coefficient, to
    its own constant *)
Theorem C90_set : forall f (o : @lfop G), references_exist f o ->
  (is_variadic o -> forall a, In a (call_terms o) -> ~ refers_to_terms a /\ ~ refers_to_const a) ->
  exists f', lf_step f o = Ok f' /\ set_means f o f'.
Proof.
  intros f [c args|c args|c] [hc ha] hv.
  - destruct (assign_ok f c hc) as (v & Rv & E). cbn [lf_step]. rewrite E. cbn [rbind].
    unfold clear_terms. cbn [l_now const_term].
    destruct (construct_ok args v [] false) as (new & En & F); [intros a h; exact (proj1 (hv Logic.I a h))|].
    rewrite En. cbn [rbind l_now app]. eexists. split; [reflexivity|]. split; [exact Rv|].
    cbn [call_terms terms]. assert (hv' : forall a, In a args -> ~ refers_to_const a) by (intros a h; exact (proj2 (hv Logic.I a h))).
    clear -F hv'. induction F as [|[g a] [x w] l l' [e [q|[q1 q2]]] F IH]; constructor.
    + simpl in *. subst. split; reflexivity.
    + apply IH. intros b h. apply hv'. right; exact h.
    + elim (hv' (g, a) (or_introl eq_refl)). exact q1.
    + apply IH. intros b h. apply hv'. right; exact h.
  - destruct (assign_ok f c hc) as (v & Rv & E). cbn [lf_step].
    destruct (read_terms_spec f args ha) as (ts & Et & F). rewrite Et, E. cbn [rbind l_now const_term].
    eexists. split; [reflexivity|]. split; [exact Rv|exact F].
  - destruct (assign_ok f c hc) as (v & Rv & E). cbn [lf_step]. rewrite E. cbn [rbind].
    eexists. split; [reflexivity|]. split; [exact Rv|constructor].
Qed.
Print Assumptions C90_set.

(** the variadic form with arguments that refer to the object: a reference to one of its terms is always
    dangling when it is read; a reference to its constant gives the new constant *)
Theorem C90_set_variadic : forall f c (args : list (garg G * narg)), references_exist f (SetArgs c args) ->
  ((exists a, In a args /\ refers_to_terms a) -> lf_step f (SetArgs c args) = Bad) /\
  ((forall a, In a args -> ~ refers_to_terms a) ->
   exists f', lf_step f (SetArgs c args) = Ok f' /\ read_n f c = Some (const_term f') /\
     Forall2 (fun (a : garg G * narg) (t : G * var_number) => fst a = GVal (fst t) /\
                match snd a with NVal v => snd t = v | NConst => snd t = const_term f' | NCoef _ => False end)
       args (terms f')).
Proof.
  intros f c args [hc ha]. destruct (assign_ok f c hc) as (v & Rv & E). cbn [lf_step]. rewrite E. cbn [rbind].
  unfold clear_terms. cbn [l_now const_term]. split.
  - intros (a & h & r). rewrite (construct_bad args _ a h r). reflexivity.
  - intros H. destruct (construct_ok args v [] false H) as (new & En & F). rewrite En. cbn [rbind l_now app].
    eexists. split; [reflexivity|]. split; [exact Rv|]. cbn [terms const_term].
    clear -F. induction F as [|[g a] [x w] l l' [e q] F IH]; constructor; [|exact IH].
    simpl in *. split; [exact e|]. destruct q as [->|[-> ->]]; reflexivity.
Qed.
Print Assumptions C90_set_variadic.

(** the constructors, and any history of calls whose arguments are values: only the last call counts *)
Theorem C90_history : forall c (ts : list (G * var_number)),
  lf_construct c ts = Ok (mk_linfun c ts) /\
  forall f (p : list (@lfop G)) o,
    (forall o', In o' (p ++ [o]) -> (exists v, call_const o' = NVal v) /\
       forall a, In a (call_terms o') -> exists g v, a = (GVal g, NVal v)) ->
    call_const o = NVal c -> call_terms o = map (fun t => (GVal (fst t), NVal (snd t))) ts ->
    lf_run f (p ++ [o]) = Ok (mk_linfun c ts).
Proof.
  intros c ts.
  assert (NR : forall l : list (G * var_number), forall a, In a (map (fun t => (GVal (fst t), NVal (snd t))) l) ->
    exists g v, a = (GVal g, NVal v)).
  { intros l a h. apply in_map_iff in h as ([g v] & <- & _). exists g, v. reflexivity. }
  assert (U : forall (l new : list (G * var_number)) k,
    Forall2 (fun (a : garg G * narg) (t : G * var_number) => fst a = GVal (fst t) /\ arg_value k (snd a) (snd t)) (map (fun t => (GVal (fst t), NVal (snd t))) l) new -> new = l).
  { induction l as [|[g v] l IH]; intros new k F; inversion F as [|x y r r' [e q] F']; subst; [reflexivity|].
    destruct y as [g' v']. simpl in *. rewrite (IH _ _ F'). injection e as <-. destruct q as [q|[q _]]; [injection q as <-; reflexivity|discriminate q]. }
  split.
  - unfold lf_construct. destruct (construct_ok (map (fun t => (GVal (fst t), NVal (snd t))) ts) c [] true) as (new & E & F).
    + intros a h r. destruct (NR ts a h) as (g & v & ->). destruct r as [[k e]|[k e]]; discriminate e.
    + rewrite E. cbn [rbind l_now app]. rewrite (U ts new c F). reflexivity.
  - intros f p. revert f. induction p as [|q p IH]; intros f o H hc ht.
    + cbn [app lf_run]. destruct (C90_set f o) as (f' & E & M1 & M2).
      * split; [intros k e; rewrite hc in e; discriminate e|].
        intros a h. rewrite ht in h. destruct (NR ts a h) as (g & v & ->). split; intros k e; discriminate e.
      * intros _ a h. rewrite ht in h. destruct (NR ts a h) as (g & v & ->). split; [intros [[k e]|[k e]]; discriminate e|intros e; discriminate e].
      * rewrite E. cbn [rbind]. f_equal. rewrite hc in M1. injection M1 as M1. rewrite ht in M2.
        destruct f' as [c' ts']. cbn [const_term terms] in *. subst c'. f_equal.
        clear -M2. revert ts' M2. induction ts as [|[g v] l IH]; intros ts' M; inversion M as [|x y r r' [e1 e2] M']; subst; [reflexivity|].
        destruct y as [g' v']. simpl in *. rewrite (IH _ M'). congruence.
    + cbn [app lf_run].
      destruct (H q (or_introl eq_refl)) as [[v hv] ha]. destruct (C90_set f q) as (f' & E & _).
      * split; [intros k e; rewrite hv in e; discriminate e|].
        intros a h. destruct (ha a h) as (g & w & ->). split; intros k e; discriminate e.
      * intros _ a h. destruct (ha a h) as (g & w & ->). split; [intros [[k e]|[k e]]; discriminate e|intros e; discriminate e].
      * rewrite E. cbn [rbind]. apply IH; [|exact hc|exact ht]. intros o' h. apply H. right; exact h.
Qed.
Print Assumptions C90_history.

(** vanishing() means: zero whatever the basis objects are - for distinct objects with non-zero
    coefficients *)
Theorem C90_vanishing : forall f, denominators_nonzero f ->
  (lf_vanishing f = true -> forall rho, value_is rho f 0) /\
  ((forall x y : G, {x = y} + {x <> y}) -> NoDup (map fst (terms f)) ->
   (forall t, In t (terms f) -> vn_is_zero (snd t) = false) ->
   (forall rho, value_is rho f 0) -> lf_vanishing f = true).
Proof.
  destruct C90_numbers as (_ & _ & _ & _ & _ & NZ & _).
  intros [c ts] [hc ht]. cbn [const_term terms] in *. unfold lf_vanishing, value_is. cbn [const_term terms]. split.
  - rewrite andb_true_iff. intros [z e] rho. destruct ts; [|discriminate e]. simpl.
    destruct (number_of c) as [x|] eqn:E; [|congruence]. exists x. split; [reflexivity|]. apply (NZ c x E). exact z.
  - intros dec nd nz V.
    assert (S0 : forall (ts' : list (G * var_number)) (rho : G -> Q), (forall t, In t ts' -> number_of (snd t) <> None) ->
      (forall g, In g (map fst ts') -> rho g == 0)%Q -> forall x, number_of c = Some x ->
      exists y, sum_of rho (Some x) ts' = Some y /\ (y == x)%Q).
    { induction ts' as [|[g v] t IH]; intros rho hn hr x Ex; simpl.
      - exists x. split; reflexivity.
      - destruct (number_of v) as [w|] eqn:Ev; [|elim (hn (g, v) (or_introl eq_refl)); exact Ev].
        destruct (IH rho) with (x := x) as (y & E & Q); [intros t' h; apply hn; right; exact h|intros g' h; apply hr; right; exact h|exact Ex|].
        rewrite E. eexists. split; [reflexivity|]. rewrite Q, (hr g (or_introl eq_refl)). ring. }
    destruct (number_of c) as [x|] eqn:Ex; [|congruence].
    assert (X0 : (x == 0)%Q).
    { destruct (S0 ts (fun _ => 0%Q) ht (fun _ _ => Qeq_refl _) x eq_refl) as (y & E & Q).
      destruct (V (fun _ => 0%Q)) as (y' & E' & Q'). rewrite E in E'. injection E' as <-. rewrite <- Q. exact Q'. }
    rewrite (proj2 (NZ c x Ex) X0). destruct ts as [|[g v] t]; [reflexivity|exfalso].
    specialize (V (fun h => if dec h g then 1%Q else 0%Q)). destruct V as (y & E & Q). simpl in E.
    destruct (number_of v) as [w|] eqn:Ev; [|elim (ht (g, v) (or_introl eq_refl)); exact Ev].
    inversion nd as [|? ? ni nd']; subst.
    destruct (S0 t (fun h => if dec h g then 1%Q else 0%Q)) with (x := x) as (z & Ez & Qz);
      [intros t' h; apply ht; right; exact h| |reflexivity|].
    { intros g' h. destruct (dec g' g) as [->|]; [elim (ni h)|reflexivity]. }
    rewrite Ez in E. injection E as <-. destruct (dec g g); [|congruence].
    assert (W : (w == 0)%Q). { rewrite <- Q, Qz, X0. ring. }
    apply (NZ v w Ev) in W. pose proof (nz (g, v) (or_introl eq_refl)) as K. simpl in K. congruence.
Qed.
Print Assumptions C90_vanishing.
End P.

(** f = 3: f.set(7, 10, f.const_term) stores 7 + 7*10, not 7 + 3*10;
    f = 3 + 5*10: f.set(1, f.terms[0].first, 2) reads a destroyed element, the vector form does not;
    1 - 1 as two terms of the same object, and a term with coefficient 0, are zero without "vanishing" *)
Theorem C90_refuted :
  (exists f', lf_step (mk_linfun (VInt 3) []) (SetArgs (NVal (VInt 7)) [(GVal 10, NConst)]) = Ok f' /\
     references_exist (mk_linfun (VInt 3) []) (SetArgs (NVal (VInt 7)) [(GVal 10, NConst)]) /\
     ~ set_means (mk_linfun (VInt 3) []) (SetArgs (NVal (VInt 7)) [(GVal 10, NConst)]) f') /\
  (let f := mk_linfun (VInt 3) [(10, VInt 5)] in
   references_exist f (SetArgs (NVal (VInt 1)) [(GOwn 0, NVal (VInt 2))]) /\
   lf_step f (SetArgs (NVal (VInt 1)) [(GOwn 0, NVal (VInt 2))]) = Bad /\
   lf_step f (SetVec (NVal (VInt 1)) [(GOwn 0, NVal (VInt 2))]) = Ok (mk_linfun (VInt 1) [(10, VInt 2)])) /\
  (exists f : linfun nat, lf_vanishing f = false /\ forall rho, value_is rho f 0).
Proof.
  split; [|split].
  - eexists. split; [reflexivity|]. split.
    + split; [discriminate|]. intros a [<-|[]]. split; intros k e; discriminate e.
    + intros [_ F]. inversion F as [|? ? ? ? [_ e] _]. discriminate e.
  - split; [|split; reflexivity]. split; [discriminate|]. intros a [<-|[]]. split; intros k e; [injection e as <-; simpl; lia|discriminate e].
  - exists (mk_linfun (VInt 0) [(10, VInt 1); (10, VInt (-1))]). split; [reflexivity|].
    intros rho. eexists. split; [reflexivity|]. simpl. unfold inject_Z. ring.
Qed.
Print Assumptions C90_refuted.

(** the hypotheses are met: f = 1/2 + 3*10, f.set(f.terms[0].second, {f.terms[0].first, f.const_term}) *)
Example C90_ex :
  let f := mk_linfun (VRat 1 2) [(10, VInt 3)] in let o := SetVec (NCoef 0) [(GOwn 0, NConst)] in
  references_exist f o /\ lf_step f o = Ok (mk_linfun (VInt 3) [(10, VRat 1 2)]) /\
  denominators_nonzero f /\ NoDup (map fst (terms f)) /\ lf_vanishing f = false /\
  lf_step f (SetArgs (NCoef 0) [(GVal 20, NVal (VInt 4)); (GVal 30, NVal (VReal (1#4)))]) =
    Ok (mk_linfun (VInt 3) [(20, VInt 4); (30, VReal (1#4))]).
Proof.
  cbn zeta. split; [|split; [reflexivity|split; [|split; [|split; reflexivity]]]].
  - split; [intros k e; injection e as <-; simpl; lia|]. intros a [<-|[]]. split; intros k e; [injection e as <-; simpl; lia|discriminate e].
  - split; [discriminate|]. intros t [<-|[]]. discriminate.
  - repeat constructor. intros [].
Qed.
