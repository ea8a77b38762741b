(** The products handed over for contraction by nested_commutator_cc. *)
From Coq Require Import Ascii String ZArith QArith Qcanon.
From Verif Require Import PyBase SpaceModel IndexModel IndexProofs IterProofs IndicesModel ElemModel MacroModel WickModel TermModel OperatorProofs CombineModel ScheduleProofs BchModel BchSpec BchProofs.
Local Close Scope Q_scope.
Local Close Scope Qc_scope.
Local Open Scope nat_scope.
Local Notation length := List.length.

(** *** renaming of symbols *)
Definition pmap (f : symbol -> symbol) (p : poly) : poly := map (fun m => (fst m, map f (snd m))) p.
Lemma pmap_app f p q : pmap f (p ++ q) = pmap f p ++ pmap f q. Proof. apply map_app. Qed.
Lemma pmap_cons f m p : pmap f (m :: p) = (fst m, map f (snd m)) :: pmap f p. Proof. reflexivity. Qed.
Lemma pmap_neg f p : pmap f (pneg p) = pneg (pmap f p).
Proof. unfold pmap, pneg. rewrite !map_map. reflexivity. Qed.
Lemma pmap_mul f p q : pmap f (pmul p q) = pmul (pmap f p) (pmap f q).
Proof.
  unfold pmul. induction p as [|m p IH]; [reflexivity|]. cbn [flat_map]. rewrite pmap_cons, pmap_app. cbn [flat_map]. rewrite <- IH. f_equal.
  unfold pmap. rewrite !map_map. apply map_ext. intros m'. cbn [fst snd]. rewrite map_app. reflexivity.
Qed.
Lemma nested_S n a b : 1 <= n -> multiplied (sympy_nested_commutator_recursive (S n) a b) =
  let p := multiplied (sympy_nested_commutator_recursive n a b) in padd (pmul p (multiplied b)) (pneg (pmul (multiplied b) p)).
Proof. destruct n as [|n]; [lia|]. reflexivity. Qed.
Lemma pmap_nested f n a b : multiplied (sympy_nested_commutator_recursive n (Poly (pmap f a)) (Poly (pmap f b))) =
  pmap f (multiplied (sympy_nested_commutator_recursive n (Poly a) (Poly b))).
Proof.
  assert (B : multiplied (Commutator (Poly (pmap f a)) (Poly (pmap f b))) = pmap f (multiplied (Commutator (Poly a) (Poly b)))).
  { cbn [multiplied]. unfold padd. rewrite pmap_app, pmap_neg, !pmap_mul. reflexivity. }
  destruct n as [|n]; [exact B|]. induction n as [|n IH]; [exact B|]. rewrite !(nested_S (Datatypes.S n)) by lia. cbv zeta. rewrite IH. cbn [multiplied]. unfold padd. rewrite pmap_app, pmap_neg, !pmap_mul. reflexivity.
Qed.
Lemma flat_map_perm {X Y} (f : X -> list Y) l l' : Permutation l l' -> Permutation (flat_map f l) (flat_map f l').
Proof.
  induction 1; cbn; [constructor|apply Permutation_app_head; assumption| |etransitivity; eassumption]. rewrite !app_assoc. apply Permutation_app_tail, Permutation_app_comm.
Qed.
Lemma flat_map_perm_in {X Y} (f g : X -> list Y) l : (forall x, Permutation (f x) (g x)) -> Permutation (flat_map f l) (flat_map g l).
Proof. intros H. induction l as [|x l IH]; cbn; [constructor|]. apply Permutation_app; auto. Qed.
Lemma pmul_perm p p' q q' : Permutation p p' -> Permutation q q' -> Permutation (pmul p q) (pmul p' q').
Proof.
  intros H H'. unfold pmul. etransitivity; [apply flat_map_perm, H|]. apply flat_map_perm_in. intros m. apply Permutation_map, H'.
Qed.
Lemma nested_perm n a a' b : Permutation a a' -> Permutation (multiplied (sympy_nested_commutator_recursive n (Poly a) b)) (multiplied (sympy_nested_commutator_recursive n (Poly a') b)).
Proof.
  intros H. assert (S : forall p p', Permutation p p' -> Permutation (padd (pmul p (multiplied b)) (pneg (pmul (multiplied b) p))) (padd (pmul p' (multiplied b)) (pneg (pmul (multiplied b) p')))).
  { intros p p' P. apply Permutation_app; [apply pmul_perm; auto|]. apply Permutation_map, pmul_perm; auto. }
  destruct n as [|n]; [exact (S a a' H)|]. induction n as [|n IH]; [exact (S a a' H)|]. rewrite !(nested_S (Datatypes.S n)) by lia. apply S, IH.
Qed.
Lemma coef_perm w p p' : Permutation p p' -> coef w p = coef w p'.
Proof. induction 1; rewrite ?coef_cons; lia. Qed.
Lemma coef_pmap f w p : (forall a b, f a = f b -> a = b) -> coef (map f w) (pmap f p) = coef w p.
Proof.
  intros I. induction p as [|m p IH]; [reflexivity|]. rewrite pmap_cons, !coef_cons, IH. cbn [fst snd]. f_equal.
  destruct (word_eqb w (snd m)) eqn:E.
  - apply word_eqb_spec in E. rewrite E, word_eqb_refl. reflexivity.
  - rewrite word_eqb_neq; [reflexivity|]. intros F. assert (w = snd m); [|subst; rewrite word_eqb_refl in E; discriminate].
    revert F. generalize (snd m). clear - I. induction w as [|x w IHw]; intros [|y u] F; cbn in F; try discriminate; [reflexivity|]. injection F as F G. f_equal; [apply I, F|apply IHw, G].
Qed.

(** *** the words of the nested commutator *)
Definition H_sym (k : nat) : symbol := Sym (level_name "H" k) false.
Definition T_sym (k : nat) : symbol := Sym (level_name "T" k) false.
Definition X_sym (k : nat) : symbol := Sym (level_name "T" k) true.
Definition amplitude (levels : list nat) (s : symbol) : Prop := exists k, In k levels /\ (s = T_sym k \/ s = X_sym k).
Definition bch_word (levels : list nat) (n : nat) (w : word) : Prop :=
  exists u h u', w = u ++ h :: u' /\ In h [H_sym 1; H_sym 2] /\ Forall (amplitude levels) (u ++ u') /\ length (u ++ u') = n.
Lemma in_pmul p q m : In m (pmul p q) <-> exists a b, In a p /\ In b q /\ m = ((fst a * fst b)%Z, snd a ++ snd b).
Proof.
  unfold pmul. rewrite in_flat_map. split.
  - intros (a & Ha & H). apply in_map_iff in H. destruct H as (b & <- & Hb). exists a, b. auto.
  - intros (a & b & Ha & Hb & ->). exists a. split; [exact Ha|]. apply in_map_iff. exists b. auto.
Qed.
Lemma generator_words levels unitary m : In m (bch_generator levels unitary) -> exists s, snd m = [s] /\ amplitude levels s.
Proof.
  unfold bch_generator, sum_of_clusters, sum_of_adjoints, pneg, padd. intros H.
  assert (G : forall m, In m (map (fun i => (1%Z, [Sym (level_name "T" i) false])) levels) -> exists s, snd m = [s] /\ amplitude levels s).
  { intros m0 H0. apply in_map_iff in H0. destruct H0 as (k & <- & Hk). exists (T_sym k). split; [reflexivity|]. exists k. auto. }
  destruct unitary; [|apply G, H]. apply in_app_iff in H. destruct H as [H|H]; [apply G, H|]. rewrite map_map in H. apply in_map_iff in H. destruct H as (k & <- & Hk).
  exists (X_sym k). split; [reflexivity|]. exists k. auto.
Qed.
Lemma step_words levels unitary n p : (forall m, In m p -> bch_word levels n (snd m)) ->
  forall m, In m (padd (pmul p (bch_generator levels unitary)) (pneg (pmul (bch_generator levels unitary) p))) -> bch_word levels (S n) (snd m).
Proof.
  intros P m H. unfold padd in H. apply in_app_iff in H. destruct H as [H|H].
  - apply in_pmul in H. destruct H as (a & b & Ha & Hb & ->). cbn [snd]. destruct (P a Ha) as (u & h & u' & -> & Hh & F & L). destruct (generator_words _ _ b Hb) as (s & -> & Hs).
    exists u, h, (u' ++ [s]). split; [rewrite <- app_assoc; reflexivity|]. split; [exact Hh|]. rewrite app_assoc. split; [apply Forall_app; auto|]. rewrite app_length, L. cbn. lia.
  - unfold pneg in H. apply in_map_iff in H. destruct H as (m' & <- & H). cbn [snd]. apply in_pmul in H. destruct H as (b & a & Hb & Ha & ->). cbn [snd].
    destruct (P a Ha) as (u & h & u' & -> & Hh & F & L). destruct (generator_words _ _ b Hb) as (s & -> & Hs). exists (s :: u), h, u'. split; [reflexivity|]. split; [exact Hh|].
    split; [constructor; assumption|]. cbn. lia.
Qed.
Lemma nested_words levels unitary n m : 1 <= n ->
  In m (multiplied (sympy_nested_commutator_recursive n (Poly sum_of_hamiltonians) (Poly (bch_generator levels unitary)))) -> bch_word levels n (snd m).
Proof.
  intros Hn. assert (B : forall m, In m sum_of_hamiltonians -> bch_word levels 0 (snd m)).
  { intros m0 H. exists [], (hd (H_sym 1) (snd m0)), []. cbn in H. destruct H as [<-|[<-|[]]]; cbn; repeat split; auto. }
  destruct n as [|n]; [lia|]. clear Hn. revert m. induction n as [|n IH]; intros m.
  - cbn [sympy_nested_commutator_recursive multiplied]. apply step_words, B.
  - rewrite (nested_S (Datatypes.S n)) by lia. cbv zeta. cbn [multiplied]. apply step_words, IH.
Qed.

(** *** there is never a single summand *)
Definition swap_h (s : symbol) : symbol := if symbol_eqb s (H_sym 1) then H_sym 2 else if symbol_eqb s (H_sym 2) then H_sym 1 else s.
Lemma symbol_eqb_refl s : symbol_eqb s s = true. Proof. apply symbol_eqb_spec. reflexivity. Qed.
Lemma swap_h_invol s : swap_h (swap_h s) = s.
Proof.
  unfold swap_h. destruct (symbol_eqb s (H_sym 1)) eqn:E1; [apply symbol_eqb_spec in E1; subst; reflexivity|].
  destruct (symbol_eqb s (H_sym 2)) eqn:E2; [apply symbol_eqb_spec in E2; subst; reflexivity|]. rewrite E1, E2. reflexivity.
Qed.
Lemma swap_h_inj a b : swap_h a = swap_h b -> a = b.
Proof. intros H. rewrite <- (swap_h_invol a), H. apply swap_h_invol. Qed.
Lemma swap_h_generator levels unitary : pmap swap_h (bch_generator levels unitary) = bch_generator levels unitary.
Proof.
  unfold pmap. rewrite <- (map_id (bch_generator levels unitary)) at 2. apply map_ext_in. intros m Hm. destruct (generator_words _ _ m Hm) as (s & E & k & Hk & Hs).
  destruct m as [c w]. cbn [fst snd] in *. rewrite E. cbn [map]. do 2 f_equal. destruct Hs as [-> | ->]; reflexivity.
Qed.
Lemma swap_h_word levels n w : bch_word levels n w -> map swap_h w <> w.
Proof.
  intros (u & h & u' & -> & Hh & _) E. rewrite map_app in E. cbn [map] in E. assert (L : length (map swap_h u) = length u) by apply map_length.
  assert (E' := f_equal (fun l => nth (length u) l h) E). cbn beta in E'. rewrite <- L in E' at 1. rewrite !nth_middle in E'.
  destruct Hh as [<-|[<-|[]]]; discriminate.
Qed.
Lemma nested_not_single levels unitary n c w :
  1 <= n -> doit_expand (sympy_nested_commutator_recursive n (Poly sum_of_hamiltonians) (Poly (bch_generator levels unitary))) <> [(c, w)].
Proof.
  intros Hn E. unfold doit_expand in E. set (e := multiplied _) in E. assert (I : In (c, w) (collected e)) by (rewrite E; left; reflexivity). apply collected_spec in I. destruct I as [Ec Nc].
  assert (W : bch_word levels n w).
  { destruct (in_dec word_dec w (map snd e)) as [I|I].
    - apply in_map_iff in I. destruct I as (m & <- & I). apply (nested_words levels unitary n m Hn I).
    - rewrite coef_absent in Ec by exact I. contradiction. }
  assert (C : coef (map swap_h w) e = c).
  { rewrite Ec. rewrite <- (coef_pmap swap_h w e swap_h_inj). apply coef_perm. unfold e. rewrite <- pmap_nested, swap_h_generator. apply nested_perm. apply perm_swap. }
  assert (I : In (c, map swap_h w) (collected e)) by (apply collected_spec; auto). rewrite E in I. destruct I as [I|[]]. injection I as I. apply (swap_h_word levels n w W). symmetry. exact I.
Qed.

(** *** names *)
Lemma tensor_names_map w : tensor_names w = map tensor_name w.
Proof.
  unfold tensor_names. induction w as [|x w IH]; [reflexivity|]. cbn [powers map]. destruct (powers w) as [|[y n] r]; [cbn in *; rewrite <- IH; reflexivity|].
  destruct (symbol_eqb x y) eqn:E.
  - apply symbol_eqb_spec in E. subst y. cbn [flat_map fst snd repeat app] in *. f_equal. exact IH.
  - cbn [flat_map fst snd repeat app] in *. f_equal. exact IH.
Qed.
Lemma parse_level c k : parse_name (level_name c k) = Ok (c, k).
Proof. unfold parse_name, level_name. rewrite decimal_isdigit, int_of_decimal. reflexivity. Qed.

Section Tasks.
  Context (hole particle : label) (HL : lbeta hole = false) (PL : lbeta particle = false) (HG : hole <> Lab false Sg) (PG : particle <> Lab false Sg).
  Definition disjoint_indices (a b : term) : Prop := forall i, In i (tindices a) -> ~ In i (tindices b).
  (** the term built for a symbol *)
  Definition built (s : symbol) (start : nat) (t : term) : Prop :=
    (exists k, s = T_sym k /\ cluster_operator k start true "T" (Q2Qc 1) hole particle SpinOrbital = Ok t) \/
    (exists k, s = X_sym k /\ cluster_operator k start false "T" (Q2Qc 1) hole particle SpinOrbital = Ok t) \/
    (exists k, s = H_sym k /\ hamiltonian_operator k 0 SpinOrbital = Ok t).
  Lemma cluster_exists k start ex : exists t, cluster_operator k start ex "T" (Q2Qc 1) hole particle SpinOrbital = Ok t.
  Proof. apply cluster_success. right. rewrite HL, PL. auto. Qed.
  Definition known (s : symbol) : Prop := exists k, s = T_sym k \/ s = X_sym k \/ s = H_sym k.
  Definition is_h (s : symbol) : Prop := exists k, s = H_sym k.
  Definition apart (a b : symbol) : Prop := ~ (is_h a /\ is_h b).
  Lemma built_disjoint s start t s' start' t' : apart s s' -> built s start t -> built s' start' t' ->
    (forall k, s = T_sym k \/ s = X_sym k -> start + k <= start') -> disjoint_indices t t'.
  Proof.
    intros AP B B' L i Hi Hi'.
    assert (C : forall k st ex tt, cluster_operator k st ex "T" (Q2Qc 1) hole particle SpinOrbital = Ok tt -> In i (tindices tt) -> fst i <> Lab false Sg /\ st <= snd i < st + k).
    { intros k st ex tt E I. apply cluster_ok in E. destruct E as (_ & _ & _ & _ & Q). apply Q in I. destruct I as [[I|I] R]; split; congruence || exact R. }
    assert (G : forall k tt, hamiltonian_operator k 0 SpinOrbital = Ok tt -> In i (tindices tt) -> fst i = Lab false Sg).
    { intros k tt E I. destruct (hamiltonian_ok k 0 SpinOrbital) as (t2 & E2 & _ & _ & _ & _ & Q). rewrite E in E2. injection E2 as <-. apply Q in I. apply I. }
    destruct B as [(k & -> & E)|[(k & -> & E)|(k & -> & E)]].
    - specialize (L k (or_introl eq_refl)). destruct (C _ _ _ _ E Hi) as [N R]. destruct B' as [(k' & -> & E')|[(k' & -> & E')|(k' & -> & E')]].
      + destruct (C _ _ _ _ E' Hi'). lia.
      + destruct (C _ _ _ _ E' Hi'). lia.
      + apply N, (G k' t' E' Hi').
    - specialize (L k (or_intror eq_refl)). destruct (C _ _ _ _ E Hi) as [N R]. destruct B' as [(k' & -> & E')|[(k' & -> & E')|(k' & -> & E')]].
      + destruct (C _ _ _ _ E' Hi'). lia.
      + destruct (C _ _ _ _ E' Hi'). lia.
      + apply N, (G k' t' E' Hi').
    - destruct B' as [(k' & -> & E')|[(k' & -> & E')|(k' & -> & E')]].
      + apply (proj1 (C _ _ _ _ E' Hi')), (G k t E Hi).
      + apply (proj1 (C _ _ _ _ E' Hi')), (G k t E Hi).
      + apply AP. split; eexists; reflexivity.
  Qed.
  Lemma built_later (w : word) (ts : list term) st st' : st <= st' ->
    Forall2 (fun s t => exists start', st' <= start' /\ built s start' t) w ts -> Forall2 (fun s t => exists start', st <= start' /\ built s start' t) w ts.
  Proof. intros L. induction 1 as [|x y l l' (u & Lu & B) F IH]; constructor; [|exact IH]. exists u. split; [lia|exact B]. Qed.
  Lemma later_disjoint s t start (w : word) ts : built s start t -> Forall (apart s) w ->
    forall st', (forall k, s = T_sym k \/ s = X_sym k -> start + k <= st') -> Forall2 (fun s t => exists start', st' <= start' /\ built s start' t) w ts -> Forall (disjoint_indices t) ts.
  Proof.
    intros B AP st' L. induction 1 as [|x y l l' (u & Lu & B') F IH]; constructor.
    - eapply built_disjoint; [exact (Forall_inv AP)|exact B|exact B'|]. intros k Hk. specialize (L k Hk). lia.
    - apply IH. exact (Forall_inv_tail AP).
  Qed.
  Lemma T_X_inj k k' : T_sym k = T_sym k' -> k = k'.
  Proof. intros H. injection H as H. apply decimal_inj, H. Qed.
  (** what is known of the terms of a list made from number [start] on *)
  Lemma list_of_terms_ok w : Forall known w -> ForallOrdPairs apart w -> forall start, exists ts,
    list_of_terms hole particle start (tensor_names w) = Ok ts /\ Forall2 (fun s t => exists start', start <= start' /\ built s start' t) w ts /\
    ForallOrdPairs disjoint_indices ts.
  Proof.
    rewrite tensor_names_map. induction 1 as [|s w Hs F IH]; intros AP start; [exists []; repeat split; constructor|]. inversion AP as [|? ? A1 A2]; subst. specialize (IH A2). cbn [map list_of_terms].
    destruct Hs as (k & [Es|[Es|Es]]); subst s.
    - change (tensor_name (T_sym k)) with (level_name "T" k). rewrite parse_level. cbn [pybind Ascii.eqb Bool.eqb orb]. destruct (cluster_exists k start true) as (t & Et). rewrite Et. cbn [pybind].
      destruct (IH (start + k)) as (ts & E & G & D). rewrite E. exists (t :: ts). assert (B : built (T_sym k) start t) by (left; eauto). split; [reflexivity|]. split.
      + constructor; [exists start; auto|]. eapply built_later; [|exact G]. lia.
      + constructor; [|exact D]. eapply later_disjoint; [exact B|exact A1| |exact G]. intros k' [H|H]; [apply T_X_inj in H; lia|discriminate].
    - change (tensor_name (X_sym k)) with (level_name "X" k). rewrite parse_level. cbn [pybind Ascii.eqb Bool.eqb orb]. destruct (cluster_exists k start false) as (t & Et). rewrite Et. cbn [pybind].
      destruct (IH (start + k)) as (ts & E & G & D). rewrite E. exists (t :: ts). assert (B : built (X_sym k) start t) by (right; left; eauto). split; [reflexivity|]. split.
      + constructor; [exists start; auto|]. eapply built_later; [|exact G]. lia.
      + constructor; [|exact D]. eapply later_disjoint; [exact B|exact A1| |exact G]. intros k' [H|H]; [discriminate|]. injection H as H. apply decimal_inj in H. lia.
    - change (tensor_name (H_sym k)) with (level_name "H" k). rewrite parse_level. cbn [pybind Ascii.eqb Bool.eqb orb]. destruct (hamiltonian_ok k 0 SpinOrbital) as (t & Et & _). rewrite Et. cbn [pybind].
      destruct (IH start) as (ts & E & G & D). rewrite E. exists (t :: ts). assert (B : built (H_sym k) start t) by (right; right; eauto). split; [reflexivity|]. split.
      + constructor; [exists start; auto|exact G].
      + constructor; [|exact D]. eapply later_disjoint; [exact B|exact A1| |exact G]. intros k' [H|H]; discriminate.
  Qed.
End Tasks.

(** *** all products *)
Lemma bch_word_known levels n w : bch_word levels n w -> Forall known w.
Proof.
  intros (u & h & u' & -> & Hh & F & _). apply Forall_app in F. destruct F as [F F'].
  assert (G : forall s, amplitude levels s -> known s) by (intros s (k & _ & [H|H]); exists k; auto). apply Forall_app. split; [eapply Forall_impl; [exact G|exact F]|].
  constructor; [destruct Hh as [<-|[<-|[]]]; eexists; eauto|eapply Forall_impl; [exact G|exact F']].
Qed.
Lemma amplitude_not_h levels s : amplitude levels s -> ~ is_h s.
Proof. intros (k & _ & [H|H]) (j & E); subst; discriminate. Qed.
Lemma bch_word_apart levels n w : bch_word levels n w -> ForallOrdPairs apart w.
Proof.
  intros (u & h & u' & -> & Hh & F & _). apply Forall_app in F. destruct F as [F F'].
  assert (G : ForallOrdPairs apart (h :: u')).
  { constructor; [eapply Forall_impl; [|exact F']; intros s Hs [_ Q]; exact (amplitude_not_h _ _ Hs Q)|].
    induction F' as [|x l Hx F' IH]; constructor; [|exact IH]. eapply Forall_impl; [|exact F']. intros s Hs [_ Q]. exact (amplitude_not_h _ _ Hs Q). }
  induction F as [|x l Hx F IH]; cbn; [exact G|]. constructor; [|exact IH]. apply Forall_forall. intros s _ [Q _]. exact (amplitude_not_h _ _ Hx Q).
Qed.
Lemma expanded_words levels unitary n m : 1 <= n ->
  In m (doit_expand (sympy_nested_commutator_recursive n (Poly sum_of_hamiltonians) (Poly (bch_generator levels unitary)))) -> bch_word levels n (snd m).
Proof.
  intros Hn H. destruct m as [c w]. unfold doit_expand in H. apply collected_spec in H. destruct H as [-> Nc]. cbn [snd]. match type of Nc with coef w ?e <> _ => set (p := e) in * end. destruct (in_dec word_dec w (map snd p)) as [I|I].
  - apply in_map_iff in I. destruct I as (m & <- & I). apply (nested_words levels unitary n m Hn I).
  - rewrite coef_absent in Nc by exact I. contradiction.
Qed.
Lemma summands_perm order levels unitary n : (forall p, Permutation (order p) p) -> 1 <= n -> exists p, nested_monomials order n levels unitary = Ok p /\
  Permutation p (doit_expand (sympy_nested_commutator_recursive n (Poly sum_of_hamiltonians) (Poly (bch_generator levels unitary)))).
Proof.
  intros O Hn. unfold nested_monomials. set (q := doit_expand _). assert (NS : forall c w, q <> [(c, w)]) by (intros c w; apply nested_not_single, Hn).
  destruct q as [|m [|m' q]]; cbn [summands].
  - exists []. split; [reflexivity|constructor].
  - destruct m as [c w]. destruct (NS c w eq_refl).
  - eexists. split; [reflexivity|apply O].
Qed.
Definition operator_of {A : ncalg} (T X H : nat -> A) (s : symbol) : A :=
  match parse_name (tensor_name s) with
  | Ok (c, k) => if Ascii.eqb c "T" then T k else if Ascii.eqb c "X" then X k else H k
  | _ => n0
  end.
Lemma operator_of_T {A : ncalg} (T X H : nat -> A) k : operator_of T X H (T_sym k) = T k.
Proof. unfold operator_of. change (tensor_name (T_sym k)) with (level_name "T" k). rewrite parse_level. reflexivity. Qed.
Lemma operator_of_X {A : ncalg} (T X H : nat -> A) k : operator_of T X H (X_sym k) = X k.
Proof. unfold operator_of. change (tensor_name (X_sym k)) with (level_name "X" k). rewrite parse_level. reflexivity. Qed.
Lemma operator_of_H {A : ncalg} (T X H : nat -> A) k : operator_of T X H (H_sym k) = H k.
Proof. unfold operator_of. change (tensor_name (H_sym k)) with (level_name "H" k). rewrite parse_level. reflexivity. Qed.
Lemma Forall2_weaken {X Y} (P Q : X -> Y -> Prop) l l' : (forall x y, P x y -> Q x y) -> Forall2 P l l' -> Forall2 Q l l'.
Proof. intros H. induction 1; constructor; auto. Qed.
Lemma positions_map {X Y} (f : X -> Y) l : positions (map f l) = map (fun kx => (fst kx, f (snd kx))) (positions l).
Proof. unfold positions. rewrite map_length. generalize (seq 0 (length l)). induction l as [|x l IH]; intros [|k s]; cbn; try reflexivity. f_equal. apply IH. Qed.
Lemma pymap_ext {X Y Z} (f : X -> pyres Z) (g : Y -> pyres Z) l l' : Forall2 (fun x y => f x = g y) l l' -> pymap f l = pymap g l'.
Proof. induction 1 as [|x y l l' E F IH]; [reflexivity|]. cbn. rewrite E, IH. reflexivity. Qed.
Lemma positions_Forall2 {X Y} (R : X -> Y -> Prop) l l' : Forall2 R l l' -> Forall2 (fun a b => fst a = fst b /\ R (snd a) (snd b)) (positions l) (positions l').
Proof.
  intros F. unfold positions. rewrite <- (Forall2_len _ _ _ F). generalize (seq 0 (length l)). induction F as [|x y l l' H F IH]; intros [|k s]; cbn; constructor; cbn; auto.
Qed.

Lemma built_h hole particle s st t : In s [H_sym 1; H_sym 2] -> built hole particle s st t -> exists k, (k = 1 \/ k = 2) /\ hamiltonian_operator k 0 SpinOrbital = Ok t.
Proof.
  intros Hs B. destruct B as [(k & E & _)|[(k & E & _)|(k & E & B)]].
  - exfalso. destruct Hs as [<-|[<-|[]]]; discriminate.
  - exfalso. destruct Hs as [<-|[<-|[]]]; discriminate.
  - exists k. split; [|exact B]. destruct Hs as [<-|[<-|[]]]; injection E as E; [change ["1"%char] with (decimal 1) in E|change ["2"%char] with (decimal 2) in E]; apply decimal_inj in E; auto.
Qed.
Lemma built_amplitudes levels hole particle w ts : Forall (amplitude levels) w -> Forall2 (fun s t => exists start', 0 <= start' /\ built hole particle s start' t) w ts ->
  Forall (fun t => exists k start excitation, In k levels /\ cluster_operator k start excitation "T" (Q2Qc 1) hole particle SpinOrbital = Ok t) ts.
Proof.
  intros F G. induction G as [|s t w ts (st & _ & B) _ IH]; constructor; [|exact (IH (Forall_inv_tail F))]. destruct (Forall_inv F) as (k & Hk & E).
  destruct B as [(j & Ej & B)|[(j & Ej & B)|(j & Ej & _)]].
  - exists j, st, true. split; [|exact B]. destruct E as [E|E]; subst s; [apply T_X_inj in E; congruence|discriminate].
  - exists j, st, false. split; [|exact B]. destruct E as [E|E]; subst s; [discriminate|]. injection E as E. apply decimal_inj in E. congruence.
  - exfalso. destruct E as [E|E]; subst s; discriminate.
Qed.

Lemma nested_tasks order n levels (unitary single_reference : bool) : (forall p, Permutation (order p) p) -> 1 <= n ->
  let hole := Lab false (if single_reference then Sc else Sh) in
  let particle := Lab false (if single_reference then Sv else Sp) in
  exists tasks : list (Qc * list term),
  (forall ws max_cu max_n_open min_n_open for_commutator expand_hole n_process hermitian,
    nested_commutator_cc ws order n levels max_cu max_n_open min_n_open for_commutator expand_hole single_reference unitary n_process hermitian =
    pybind (pymap (fun kt => contract_terms (ws (fst kt)) (snd (snd kt)) max_cu max_n_open min_n_open (fst (snd kt)) for_commutator expand_hole n_process hermitian) (positions tasks))
      (fun outs => combine_terms (concat outs))) /\
  Forall (fun task => length (snd task) = Datatypes.S n /\ ForallOrdPairs disjoint_indices (snd task) /\
    (exists z, fst task = Qcmult (inv_fact n) (Qc_of_Z z)) /\
    exists l h r, snd task = l ++ h :: r /\ (exists k, (k = 1 \/ k = 2) /\ hamiltonian_operator k 0 SpinOrbital = Ok h) /\
      Forall (fun t => exists k start excitation, In k levels /\ cluster_operator k start excitation "T" (Q2Qc 1) hole particle SpinOrbital = Ok t) (l ++ r)) tasks /\
  (forall (A : ncalg) (val : term -> A) (T X H : nat -> A),
    (forall k start t, cluster_operator k start true "T" (Q2Qc 1) hole particle SpinOrbital = Ok t -> val t = T k) ->
    (forall k start t, cluster_operator k start false "T" (Q2Qc 1) hole particle SpinOrbital = Ok t -> val t = X k) ->
    (forall k t, hamiltonian_operator k 0 SpinOrbital = Ok t -> val t = H k) ->
    nsum (map (fun task => nscal (fst task) (nprod (map val (snd task)))) tasks) =
    nscal (inv_fact n) (nested n (nadd (H 1) (H 2))
      (if unitary then nadd (nsum (map T levels)) (nopp (nsum (map X levels))) else nsum (map T levels)))) /\
  exists p, Permutation p (doit_expand (sympy_nested_commutator_recursive n (Poly sum_of_hamiltonians) (Poly (bch_generator levels unitary)))) /\
    Forall2 (fun m task => fst task = Qcmult (inv_fact n) (Qc_of_Z (fst m)) /\ Forall2 (fun s t => exists start', 0 <= start' /\ built hole particle s start' t) (snd m) (snd task)) p tasks.
Proof.
  intros O Hn hole particle.
  destruct (summands_perm order levels unitary n O Hn) as (p & Ep & Pp).
  assert (W : Forall (fun m => bch_word levels n (snd m)) p).
  { apply Forall_forall. intros m Hm. apply (Permutation_in _ Pp) in Hm. apply (expanded_words levels unitary n m Hn Hm). }
  assert (HL : lbeta hole = false) by reflexivity. assert (PL : lbeta particle = false) by reflexivity.
  assert (HG : hole <> Lab false Sg) by (unfold hole; destruct single_reference; discriminate). assert (PG : particle <> Lab false Sg) by (unfold particle; destruct single_reference; discriminate).
  assert (TS : exists tasks : list (Qc * list term), Forall2 (fun m task => fst task = Qcmult (inv_fact n) (Qc_of_Z (fst m)) /\
      list_of_terms hole particle 0 (tensor_names (snd m)) = Ok (snd task) /\ Forall2 (fun s t => exists start', 0 <= start' /\ built hole particle s start' t) (snd m) (snd task) /\
      ForallOrdPairs disjoint_indices (snd task)) p tasks).
  { clear Ep Pp. induction W as [|m p Wm W IH]; [exists []; constructor|]. destruct IH as (tasks & F).
    destruct (list_of_terms_ok hole particle HL PL HG PG (snd m) (bch_word_known _ _ _ Wm) (bch_word_apart _ _ _ Wm) 0) as (ts & E & B & D).
    exists ((Qcmult (inv_fact n) (Qc_of_Z (fst m)), ts) :: tasks). constructor; [cbn [fst snd]; auto|exact F]. }
  destruct TS as (tasks & F). exists tasks. split; [|split; [|split]].
  - intros. unfold nested_commutator_cc. cbv zeta. rewrite Ep. cbn [pybind]. f_equal. apply pymap_ext.
    eapply Forall2_weaken; [|exact (positions_Forall2 _ _ _ F)]. intros [k [c w]] [k' [q ts]] (Ek & Eq & El & _). cbn [fst snd] in *. subst k' q. fold hole particle. rewrite El. reflexivity.
  - clear Ep Pp. induction F as [|m task p tasks (Eq & El & B & D) F IH]; constructor.
    + split; [|split; [exact D|split; [eexists; exact Eq|]]].
      * apply Forall2_len in B. rewrite <- B. destruct (Forall_inv W) as (u & h & u' & -> & _ & _ & L). rewrite app_length in *. cbn. lia.
      * destruct (Forall_inv W) as (u & h & u' & Ew & Hh & FA & _). rewrite Ew in B. apply Forall2_app_inv_l in B as (l & r' & B1 & B2 & Et). inversion B2 as [|? t ? r (st & _ & Bt) B3]; subst. exists l, t, r. split; [exact Et|]. split; [exact (built_h _ _ _ _ _ Hh Bt)|].
        apply Forall_app in FA as [FA1 FA2]. apply Forall_app. split; [exact (built_amplitudes _ _ _ _ _ FA1 B1)|exact (built_amplitudes _ _ _ _ _ FA2 B3)].
    + apply IH. exact (Forall_inv_tail W).
  - intros A val T X H VT VX VH. set (v := operator_of T X H).
    assert (V : forall s st t, built hole particle s st t -> val t = v s).
    { intros s st t [(k & -> & E)|[(k & -> & E)|(k & -> & E)]]; unfold v.
      - rewrite operator_of_T. eapply VT, E.
      - rewrite operator_of_X. eapply VX, E.
      - rewrite operator_of_H. eapply VH, E. }
    transitivity (nscal (inv_fact n) (poly_value v p)).
    + unfold poly_value. rewrite <- nsum_scal. clear Ep Pp W. induction F as [|m task p tasks (Eq & El & B & D) F IH]; [reflexivity|]. cbn [map]. rewrite !nsum_cons. f_equal; [|exact IH].
      rewrite Eq, nscal_mul. do 2 f_equal. unfold word_value. f_equal. clear - B V. induction B as [|s t w ts (st & _ & B) F IH]; [reflexivity|]. cbn [map]. f_equal; [eapply V, B|exact IH].
    + f_equal. unfold poly_value at 1. rewrite (nsum_perm _ _ _ (Permutation_map _ Pp)). fold (poly_value v (doit_expand (sympy_nested_commutator_recursive n (Poly sum_of_hamiltonians) (Poly (bch_generator levels unitary))))).
      rewrite doit_expand_value, recursive_value by exact Hn. cbn [expr_value]. f_equal.
      * unfold poly_value, sum_of_hamiltonians. cbn [map fst snd]. rewrite !nsum_cons, nsum_nil, nadd_0r, Qc_of_Z_1, !nscal_1. unfold word_value. cbn [map]. rewrite !nprod_cons, !nprod_nil, !nmul_1r.
        reflexivity.
      * assert (GT : poly_value v (sum_of_clusters levels) = nsum (map T levels)).
        { unfold poly_value, sum_of_clusters. rewrite map_map. apply nsum_ext. intros k _. cbn [fst snd]. rewrite Qc_of_Z_1, nscal_1. unfold word_value. cbn [map]. rewrite nprod_cons, nprod_nil, nmul_1r. apply operator_of_T. }
        assert (GX : poly_value v (sum_of_adjoints levels) = nsum (map X levels)).
        { unfold poly_value, sum_of_adjoints. rewrite map_map. apply nsum_ext. intros k _. cbn [fst snd]. rewrite Qc_of_Z_1, nscal_1. unfold word_value. cbn [map]. rewrite nprod_cons, nprod_nil, nmul_1r. apply operator_of_X. }
        unfold bch_generator. destruct unitary; [|exact GT]. unfold padd. rewrite poly_value_app, poly_value_neg, GT, GX. reflexivity.
  - exists p. split; [exact Pp|]. eapply Forall2_weaken; [|exact F]. intros m task (Q1 & _ & Q2 & _). auto.
Qed.
