(** * Who owns the arrays of a matrix: allocation and release in class CSR.

    Models, as far as allocation, release and access to the seven arrays of a
    matrix are concerned (the numbers stored in them are left out):
    - [MALLOC], [FREE] (/repo/Utils.hpp:16-17);
    - the constructors, [alloc], [dealloc] and the destructor of CSR
      (/repo/CSR.cpp:43-163), [loadBin] (/repo/CSR.cpp:308-359),
      [computeInverseDiag] (/repo/CSR.cpp:441-455), [transpose]
      (/repo/CSR.cpp:471-629), [constructDiagPtr]
      (/repo/LevelSchedule.cpp:157-162), [permuteRowptr]
      (/repo/Permute.cpp:81-112), [splitLU] (/repo/SymGS.cpp:12-118) and
      [generate3D27PtLaplacian] (/repo/Laplacian.cpp:30-83).

    [None] is undefined behaviour: releasing memory that [MALLOC] did not give
    or that is released already, and using a NULL or released array. *)
From Verif Require Import Base.

(** ** The heap *)

(** What a pointer may be: NULL, the start of a block [MALLOC] gave, an
    address inside the memory pool, or memory of the caller.
    Simplification: pool and caller memory are never released, so their
    addresses need no identity. *)
Inductive ptr := PNull | PBlk (b : Z) | PPool | PUser.

(** The blocks not released yet, and the name of the next one. *)
Record heap := Heap { live : list Z; next : Z }.

(** /repo/Utils.hpp:17 [MALLOC]: a new block (out of memory is left out). *)
Definition malloc (h : heap) : heap * ptr :=
  (Heap (next h :: live h) (next h + 1), PBlk (next h)).

(** "if (c) MALLOC": an array made only when the source has it. *)
Definition malloc_if (c : bool) (h : heap) : heap * ptr :=
  if c then malloc h else (h, PNull).

(** /repo/Utils.hpp:16 [FREE]: [if (x) _mm_free(x); x = NULL]. *)
Definition free (h : heap) (p : ptr) : option heap :=
  match p with
  | PNull => Some h
  | PBlk b =>
      if in_dec Z.eq_dec b (live h)
      then Some (Heap (remove Z.eq_dec b (live h)) (next h)) else None
  | PPool | PUser => None
  end.

(** Reading or writing an array. *)
Definition use (h : heap) (p : ptr) : option unit :=
  match p with
  | PNull => None
  | PBlk b => if in_dec Z.eq_dec b (live h) then Some tt else None
  | PPool | PUser => Some tt
  end.

Definition is_null (p : ptr) : bool := match p with PNull => true | _ => false end.
Definition is_pool (p : ptr) : bool := match p with PPool => true | _ => false end.

(** An array used only when it is there. *)
Definition use_opt (h : heap) (p : ptr) : option unit :=
  if is_null p then Some tt else use h p.

(** ** The matrix objects *)

(** The pointers of class CSR (/repo/CSR.hpp:41-48) and [ownData_]
    (/repo/CSR.hpp:192).  [brw] is not in the code: it records that [rowptr],
    [colidx] and [values] were handed in by the caller (constructor
    /repo/CSR.cpp:127-131) and not replaced since.  No step reads it. *)
Record csr := Csr { rp : ptr; ci : ptr; va : ptr; idg : ptr; dg : ptr; dp : ptr;
                    ep : ptr; own : bool; brw : bool }.

(** /repo/CSR.cpp:48-50 [CSR()]. *)
Definition csr_new : csr := Csr PNull PNull PNull PNull PNull PNull PNull false false.

(** /repo/CSR.cpp:101-102: the members before the body of the constructor that
    reads a file. *)
Definition csr_file0 : csr := Csr PNull PNull PNull PNull PNull PNull PNull true false.

(** /repo/CSR.cpp:52-74 [alloc]: nothing is released. *)
Definition c_alloc (sepdiag : bool) (h : heap) (o : csr) : heap * csr :=
  let '(h, r) := malloc h in
  let '(h, c) := malloc h in
  let '(h, v) := malloc h in
  let '(h, d) := malloc h in
  if sepdiag then
    let '(h, i) := malloc h in
    let '(h, g) := malloc h in
    (h, Csr r c v i g d (ep o) true false)
  else (h, Csr r c v (idg o) (dg o) d (ep o) true false).

(** /repo/CSR.cpp:133-158 [dealloc]; the test of 135 is [useMemoryPool_]
    (/repo/CSR.cpp:43-46): [rowptr] lies in the pool. *)
Definition c_dealloc (h : heap) (o : csr) : option (heap * csr) :=
  if is_pool (rp o) then
    Some (h, Csr PNull PNull PNull PNull PNull PNull PNull (own o) false)
  else
    ' (h, (r, e, c, v)) <-
      (if own o then
         h <- free h (rp o) ;; h <- free h (ep o) ;;
         h <- free h (ci o) ;; h <- free h (va o) ;;
         Some (h, (PNull, PNull, PNull, PNull))
       else Some (h, (rp o, ep o, ci o, va o))) ;;
    h <- free h (idg o) ;;
    h <- free h (dg o) ;;
    h <- free h (dp o) ;;
    Some (h, Csr r c v PNull PNull PNull e (own o) (brw o)).

(** The arrays of the source matrix that a function below reads. *)
Definition c_read (h : heap) (o : csr) : option unit :=
  _ <- use h (rp o) ;; _ <- use h (ci o) ;; _ <- use_opt h (va o) ;;
  _ <- use_opt h (idg o) ;; _ <- use_opt h (dg o) ;;
  _ <- use_opt h (dp o) ;; use_opt h (ep o).

(** /repo/CSR.cpp:82-99: copy constructor.  [extptr] is not copied. *)
Definition c_copy (h : heap) (a : csr) : option (heap * csr) :=
  _ <- c_read h a ;;
  let '(h, r) := malloc h in
  let '(h, c) := malloc h in
  let '(h, v) := malloc_if (negb (is_null (va a))) h in
  let '(h, d) := malloc_if (negb (is_null (dp a))) h in
  let '(h, i) := malloc_if (negb (is_null (idg a))) h in
  let '(h, g) := malloc_if (negb (is_null (dg a))) h in
  Some (h, Csr r c v i g d PNull true false).

(** /repo/Laplacian.cpp:30-83 [generate3D27PtLaplacian]: [dealloc], then six
    arrays; [ownData_] stays as it is. *)
Definition c_laplacian (h : heap) (o : csr) : option (heap * csr) :=
  ' (h, o) <- c_dealloc h o ;;
  let '(h, r) := malloc h in
  let '(h, d) := malloc h in
  let '(h, i) := malloc h in
  let '(h, g) := malloc h in
  let '(h, c) := malloc h in
  let '(h, v) := malloc h in
  Some (h, Csr r c v i g d (ep o) (own o) false).

(** /repo/CSR.cpp:308-359 [loadBin]; [opened]: the file could be opened. *)
Definition c_load_bin (opened : bool) (h : heap) (o : csr) : option (heap * csr) :=
  ' (h, o) <- c_dealloc h o ;;
  if opened then Some (c_alloc true h o) else Some (h, o).

(** /repo/CSR.cpp:117-124 with /repo/COO.cpp:186-359: a Matrix Market file
    read without error.  The three arrays of the coordinate matrix, the two
    temporary ones of a symmetric file, the arrays of the result; the
    destructor of the coordinate matrix (/repo/COO.cpp:41-51) releases its
    three. *)
Definition c_load_mm (sym : bool) (h : heap) (o : csr) : option (heap * csr) :=
  let '(h, xv) := malloc h in
  let '(h, xc) := malloc h in
  let '(h, xr) := malloc h in
  let '(h, t1) := malloc_if sym h in
  let '(h, t2) := malloc_if sym h in
  h <- free h t2 ;;
  h <- free h t1 ;;
  let '(h, o) := c_alloc true h o in
  h <- free h xr ;;
  h <- free h xc ;;
  h <- free h xv ;;
  Some (h, o).

(** /repo/CSR.cpp:101-125: the three kinds of file names. *)
Inductive source := SrcNumber | SrcBin (opened : bool) | SrcMM (sym : bool).

Definition c_file (src : source) (h : heap) : option (heap * csr) :=
  match src with
  | SrcNumber => c_laplacian h csr_file0
  | SrcBin opened => c_load_bin opened h csr_file0
  | SrcMM sym => c_load_mm sym h csr_file0
  end.

(** /repo/LevelSchedule.cpp:157-162 [constructDiagPtr]. *)
Definition c_diagptr (h : heap) (o : csr) : option (heap * csr) :=
  if is_null (dp o) then
    let '(h, d) := malloc h in
    _ <- use h (rp o) ;; _ <- use h (ci o) ;;
    Some (h, Csr (rp o) (ci o) (va o) (idg o) (dg o) d (ep o) (own o) (brw o))
  else Some (h, o).

(** /repo/CSR.cpp:441-455 [computeInverseDiag]. *)
Definition c_invdiag (h : heap) (o : csr) : option (heap * csr) :=
  if is_null (idg o) then
    ' (h, o) <- c_diagptr h o ;;
    let '(h, i) := malloc h in
    _ <- use h (rp o) ;; _ <- use h (va o) ;; _ <- use h (dp o) ;;
    Some (h, Csr (rp o) (ci o) (va o) i (dg o) (dp o) (ep o) (own o) (brw o))
  else Some (h, o).

(** /repo/Permute.cpp:81-112 [permuteRowptr], called by [permute] and
    [permuteRows], which then fill the arrays: the result is made by [CSR()]
    and [ownData_] stays false. *)
Definition c_permute (h : heap) (a : csr) : option (heap * csr) :=
  _ <- c_read h a ;;
  let '(h, r) := malloc h in
  let '(h, c) := malloc h in
  let '(h, v) := malloc_if (negb (is_null (va a))) h in
  let '(h, i) := malloc_if (negb (is_null (idg a))) h in
  let '(h, d) := malloc_if (negb (is_null (dp a))) h in
  let '(h, e) := malloc_if (negb (is_null (ep a))) h in
  Some (h, Csr r c v i PNull d e false false).

(** /repo/CSR.cpp:471-629 [transpose]: without columns it returns before
    [rowptr] is made ([n0]); [ownData_] stays false. *)
Definition c_transpose (n0 : bool) (h : heap) (a : csr) : option (heap * csr) :=
  _ <- c_read h a ;;
  let '(h, c) := malloc h in
  let '(h, v) := malloc_if (negb (is_null (va a))) h in
  let '(h, d) := malloc_if (negb (is_null (dp a))) h in
  if n0 then Some (h, Csr PNull c v PNull PNull d PNull false false)
  else
    let '(h, r) := malloc h in
    Some (h, Csr r c v PNull PNull d PNull false false).

(** ** The program: the objects by number, in order of creation *)
Record state := St { hp : heap; objs : list (option csr) }.

Definition st0 : state := St (Heap [] 0) [].

(** What a caller may do. *)
Inductive op :=
| ONew                                  (* CSR() *)
| OSized                                (* CSR(m, n, nnz) *)
| OCopy (a : Z)                         (* CSR(A) *)
| OFile (src : source)                  (* CSR(fileName, ...) *)
| OView (r c v : ptr)                   (* CSR(m, n, rowptr, colidx, values) *)
| OAlloc (a : Z) (sepdiag : bool)       (* A.alloc(m, nnz, sepdiag) *)
| ODealloc (a : Z)                      (* A.dealloc() *)
| ODelete (a : Z)                       (* delete A / end of scope *)
| OLoadBin (a : Z) (opened : bool)      (* A.loadBin(file) *)
| OLaplacian (a : Z)                    (* generate3D27PtLaplacian(A, ...) *)
| OExtptr (a : Z)                       (* A.extptr = MALLOC(int, m), by the caller *)
| ODiagptr (a : Z)                      (* A.constructDiagPtr() *)
| OInvdiag (a : Z)                      (* A.computeInverseDiag() *)
| OPermute (a : Z)                      (* A.permute(...), A.permuteRows(...) *)
| OTranspose (a : Z) (n0 : bool)        (* A.transpose() *)
| OSplitLU (a l u : Z).                 (* splitLU(A, L, U) *)

Definition obj (s : state) (a : Z) : option csr :=
  match get (objs s) a with Some (Some o) => Some o | _ => None end.

(** The new object gets the next number. *)
Definition add (s : state) (ho : heap * csr) : state :=
  St (fst ho) (objs s ++ [Some (snd ho)]).

Definition put (s : state) (a : Z) (ho : heap * csr) : option state :=
  os <- set (objs s) a (Some (snd ho)) ;; Some (St (fst ho) os).

(** /repo/SymGS.cpp:12-118 [splitLU]: reads A, deallocs L and U, makes the
    arrays of both, fills them from A.  [ownData_] of L and U stays as it
    is. *)
Definition s_splitLU (s : state) (a l u : Z) : option state :=
  oa <- obj s a ;;
  _ <- c_read (hp s) oa ;;
  ol <- obj s l ;;
  ho <- c_dealloc (hp s) ol ;;
  s <- put s l ho ;;
  ou <- obj s u ;;
  ho <- c_dealloc (hp s) ou ;;
  s <- put s u ho ;;
  oa <- obj s a ;; ol <- obj s l ;; ou <- obj s u ;;
  let h := hp s in
  let '(h, e) := (if is_null (ep oa) then (h, ep ou) else malloc h) in
  let '(h, lr) := malloc h in
  let '(h, ur) := malloc h in
  let '(h, li) := malloc h in
  let '(h, ui) := malloc h in
  _ <- c_read h oa ;;
  _ <- use h (va oa) ;; _ <- use h (idg oa) ;;
  let '(h, lc) := malloc h in
  let '(h, lv) := malloc h in
  let '(h, uc) := malloc h in
  let '(h, uv) := malloc h in
  s <- put s l (h, Csr lr lc lv li (dg ol) (dp ol) (ep ol) (own ol) false) ;;
  put s u (h, Csr ur uc uv ui (dg ou) (dp ou) e (own ou) false).

Definition step (s : state) (x : op) : option state :=
  let h := hp s in
  match x with
  | ONew => Some (add s (h, csr_new))
  | OSized => Some (add s (c_alloc true h csr_new))
  | OCopy a => o <- obj s a ;; r <- c_copy h o ;; Some (add s r)
  | OFile src => r <- c_file src h ;; Some (add s r)
  | OView r c v =>
      _ <- use h r ;;       (* getBase() in the assertion, /repo/CSR.cpp:130 *)
      Some (add s (h, Csr r c v PNull PNull PNull PNull false true))
  | OAlloc a d => o <- obj s a ;; put s a (c_alloc d h o)
  | ODealloc a => o <- obj s a ;; r <- c_dealloc h o ;; put s a r
  | ODelete a =>
      o <- obj s a ;;
      r <- c_dealloc h o ;;
      os <- set (objs s) a None ;;
      Some (St (fst r) os)
  | OLoadBin a opened => o <- obj s a ;; r <- c_load_bin opened h o ;; put s a r
  | OLaplacian a => o <- obj s a ;; r <- c_laplacian h o ;; put s a r
  | OExtptr a =>
      o <- obj s a ;;
      let '(h, e) := malloc h in
      put s a (h, Csr (rp o) (ci o) (va o) (idg o) (dg o) (dp o) e (own o) (brw o))
  | ODiagptr a => o <- obj s a ;; r <- c_diagptr h o ;; put s a r
  | OInvdiag a => o <- obj s a ;; r <- c_invdiag h o ;; put s a r
  | OPermute a => o <- obj s a ;; r <- c_permute h o ;; Some (add s r)
  | OTranspose a n0 => o <- obj s a ;; r <- c_transpose n0 h o ;; Some (add s r)
  | OSplitLU a l u => s_splitLU s a l u
  end.

(** ** What may be asked of the caller, and what is promised *)

(** The pointer may be used. *)
Definition valid (s : state) (p : ptr) : Prop :=
  match p with PNull => False | PBlk b => In b (live (hp s)) | _ => True end.

(** The matrix has data.  Only for pointers handed in by the caller it is the
    caller who must have kept them valid. *)
Definition filled (s : state) (o : csr) : Prop :=
  rp o <> PNull /\
  (brw o = true ->
   valid s (rp o) /\ valid s (ci o) /\ (va o = PNull \/ valid s (va o))).

(** The blocks a pointer stands for. *)
Definition blk (p : ptr) : list Z := match p with PBlk b => [b] | _ => [] end.

(** The blocks held by an object: all its arrays, but not [rowptr], [colidx]
    and [values] handed in by the caller. *)
Definition arrays (o : csr) : list Z :=
  (if brw o then [] else blk (rp o) ++ blk (ci o) ++ blk (va o)) ++
  blk (idg o) ++ blk (dg o) ++ blk (dp o) ++ blk (ep o).

Definition held (s : state) : list Z :=
  concat (map (fun x => match x with Some o => arrays o | None => [] end) (objs s)).

(** The caller's side of each call: the objects exist, those that are read
    have data, [splitLU] has three different matrices and A does not borrow
    its arrays from L or U. *)
Definition usable (s : state) (x : op) : Prop :=
  match x with
  | ONew | OSized | OFile _ => True
  | OView r c v => valid s r
  | OAlloc a _ | ODealloc a | ODelete a | OLoadBin a _ | OLaplacian a | OExtptr a =>
      exists o, obj s a = Some o
  | OCopy a | ODiagptr a | OPermute a | OTranspose a _ =>
      exists o, obj s a = Some o /\ filled s o
  | OInvdiag a => exists o, obj s a = Some o /\ filled s o /\ va o <> PNull
  | OSplitLU a l u =>
      a <> l /\ a <> u /\ l <> u /\
      exists oa ol ou,
        obj s a = Some oa /\ obj s l = Some ol /\ obj s u = Some ou /\
        filled s oa /\ va oa <> PNull /\ idg oa <> PNull /\
        (brw oa = true -> forall b, In b (blk (rp oa) ++ blk (ci oa) ++ blk (va oa)) ->
           ~ In b (arrays ol) /\ ~ In b (arrays ou))
  end.

(** Each call meets [usable] in the state it is made in. *)
Fixpoint usable_run (s : state) (xs : list op) : Prop :=
  match xs with
  | [] => True
  | x :: xs => usable s x /\ (forall s', step s x = Some s' -> usable_run s' xs)
  end.

(** A use of the library that gives all memory back: [permute] and
    [transpose] are not called, [generate3D27PtLaplacian] and [splitLU] write
    into matrices that own their data, [alloc] is called on matrices without
    arrays, the diagonal functions are not called on matrices in the memory
    pool, and the caller sets [extptr] once, in a matrix that owns its
    data. *)
Definition frugal (s : state) (x : op) : Prop :=
  match x with
  | OPermute _ | OTranspose _ _ => False
  | OLaplacian a => forall o, obj s a = Some o -> own o = true
  | OSplitLU _ l u =>
      (forall o, obj s l = Some o -> own o = true) /\
      (forall o, obj s u = Some o -> own o = true)
  | OAlloc a _ => forall o, obj s a = Some o -> arrays o = []
  | ODiagptr a | OInvdiag a => forall o, obj s a = Some o -> rp o <> PPool
  | OExtptr a => forall o, obj s a = Some o -> own o = true /\ ep o = PNull
  | _ => True
  end.

Fixpoint frugal_run (s : state) (xs : list op) : Prop :=
  match xs with
  | [] => True
  | x :: xs => frugal s x /\ (forall s', step s x = Some s' -> frugal_run s' xs)
  end.

(** ** Proofs: the blocks are counted *)

Definition lc (h : heap) (x : Z) : Z := Z.of_nat (count_occ Z.eq_dec (live h) x).
Definition cnt (p : ptr) (x : Z) : Z :=
  match p with PBlk b => if Z.eq_dec b x then 1 else 0 | _ => 0 end.
Definition hc (o : csr) (x : Z) : Z :=
  (if brw o then 0 else cnt (rp o) x + cnt (ci o) x + cnt (va o) x) +
  cnt (idg o) x + cnt (dg o) x + cnt (dp o) x + cnt (ep o) x.

Definition okh (h : heap) : Prop :=
  (forall x, lc h x <= 1) /\ (forall x, next h <= x -> lc h x = 0).

Definition blkn (p : ptr) : Prop := match p with PNull | PBlk _ => True | _ => False end.

Definition wf (o : csr) : Prop :=
  (blkn (idg o) /\ blkn (dg o) /\ blkn (dp o) /\ blkn (ep o)) /\
  (brw o = false -> (blkn (rp o) /\ blkn (ci o) /\ blkn (va o)) /\
                    (rp o <> PNull -> ci o <> PNull)) /\
  (own o = true -> brw o = false).

Lemma cnt_range p x : 0 <= cnt p x <= 1.
Proof. destruct p; cbn [cnt]; try lia. destruct (Z.eq_dec b x); lia. Qed.

Lemma lc_nonneg h x : 0 <= lc h x.
Proof. unfold lc. lia. Qed.

Lemma lc_In h x : In x (live h) <-> 1 <= lc h x.
Proof. unfold lc. rewrite (count_occ_In Z.eq_dec). lia. Qed.

Lemma hc_nonneg o x : 0 <= hc o x.
Proof.
  unfold hc.
  pose proof (cnt_range (rp o) x); pose proof (cnt_range (ci o) x);
  pose proof (cnt_range (va o) x); pose proof (cnt_range (idg o) x);
  pose proof (cnt_range (dg o) x); pose proof (cnt_range (dp o) x);
  pose proof (cnt_range (ep o) x).
  destruct (brw o); lia.
Qed.

Lemma malloc_spec h h' p : malloc h = (h', p) -> okh h ->
  okh h' /\ (exists b, p = PBlk b) /\ forall x, lc h' x = lc h x + cnt p x.
Proof.
  unfold malloc. intros E [O1 O2]. inversion E; subst; clear E.
  assert (HL : forall x, lc (Heap (next h :: live h) (next h + 1)) x
                       = lc h x + cnt (PBlk (next h)) x).
  { intros x. unfold lc. cbn [live count_occ cnt].
    destruct (Z.eq_dec (next h) x); lia. }
  split; [split|split].
  - intros x. rewrite HL. cbn [cnt]. specialize (O1 x). specialize (O2 x).
    destruct (Z.eq_dec (next h) x); lia.
  - intros x Hx. rewrite HL. cbn [cnt next] in *. specialize (O2 x).
    destruct (Z.eq_dec (next h) x); lia.
  - eexists; reflexivity.
  - exact HL.
Qed.

Lemma malloc_if_spec c h h' p : malloc_if c h = (h', p) -> okh h ->
  okh h' /\ blkn p /\ forall x, lc h' x = lc h x + cnt p x.
Proof.
  unfold malloc_if. destruct c; intros E O.
  - destruct (malloc_spec _ _ _ E O) as (A & (b & B) & C). subst p.
    split; [exact A|split; [exact I|exact C]].
  - inversion E; subst. split; [exact O|split; [exact I|]].
    intros x. cbn [cnt]. lia.
Qed.

Lemma count_remove b l x :
  count_occ Z.eq_dec (remove Z.eq_dec b l) x =
  if Z.eq_dec b x then 0%nat else count_occ Z.eq_dec l x.
Proof.
  induction l as [|y l IH]; cbn [remove count_occ].
  - destruct (Z.eq_dec b x); reflexivity.
  - destruct (Z.eq_dec b y) as [E|E].
    + rewrite IH. destruct (Z.eq_dec b x), (Z.eq_dec y x); try reflexivity; lia.
    + cbn [count_occ]. rewrite IH.
      destruct (Z.eq_dec b x), (Z.eq_dec y x); try reflexivity; lia.
Qed.

Lemma free_spec h p : okh h -> blkn p -> (forall x, cnt p x <= lc h x) ->
  exists h', free h p = Some h' /\ okh h' /\ forall x, lc h' x = lc h x - cnt p x.
Proof.
  intros [O1 O2] B H. destruct p as [|b| |]; cbn [blkn] in B; try contradiction.
  - exists h. cbn [free]. split; [reflexivity|split; [split; assumption|]].
    intros x. cbn [cnt]. lia.
  - cbn [free]. assert (Hb : 1 <= lc h b).
    { specialize (H b). cbn [cnt] in H. destruct (Z.eq_dec b b); lia. }
    destruct (in_dec Z.eq_dec b (live h)) as [I|N].
    2:{ exfalso. apply N, lc_In, Hb. }
    assert (HL : forall x, lc (Heap (remove Z.eq_dec b (live h)) (next h)) x
                         = lc h x - cnt (PBlk b) x).
    { intros x. unfold lc at 1. cbn [live cnt]. rewrite count_remove.
      specialize (O1 x). destruct (Z.eq_dec b x) as [->|E]; [lia|unfold lc; lia]. }
    eexists. split; [reflexivity|]. split; [split|exact HL].
    + intros x. rewrite HL. pose proof (cnt_range (PBlk b) x). specialize (O1 x). lia.
    + intros x Hx. cbn [next] in Hx. rewrite HL.
      pose proof (cnt_range (PBlk b) x). specialize (O2 x Hx).
      specialize (H x). lia.
Qed.

Lemma use_spec h p : (match p with PNull => False | PBlk b => 1 <= lc h b | _ => True end) ->
  use h p = Some tt.
Proof.
  destruct p; cbn [use]; try tauto. intros H.
  destruct (in_dec Z.eq_dec b (live h)) as [I|N]; [reflexivity|].
  exfalso. apply N, lc_In, H.
Qed.

Lemma use_blkn h p : blkn p -> p <> PNull -> (forall x, cnt p x <= lc h x) ->
  use h p = Some tt.
Proof.
  intros B N H. apply use_spec. destruct p; cbn [blkn] in B; try tauto.
  specialize (H b). cbn [cnt] in H. destruct (Z.eq_dec b b); lia.
Qed.

Lemma use_opt_blkn h p : blkn p -> (forall x, cnt p x <= lc h x) ->
  use_opt h p = Some tt.
Proof.
  intros B H. unfold use_opt. destruct (is_null p) eqn:E; [reflexivity|].
  apply use_blkn; try assumption. intros ->. discriminate.
Qed.

(** An object beside everything else: [r] counts all other blocks. *)
Definition acc (h : heap) (o : csr) (r : Z -> Z) : Prop :=
  forall x, 0 <= r x /\ lc h x = hc o x + r x.

(** Objects of a frugal program: what they hold, [dealloc] releases. *)
Definition tidy (o : csr) : Prop :=
  own o = true \/
  (own o = false /\ ep o = PNull /\
   (brw o = true \/ (rp o = PNull /\ ci o = PNull /\ va o = PNull)) /\
   (rp o = PPool -> idg o = PNull /\ dg o = PNull /\ dp o = PNull)).

(** The result of a function on one object: [d] counts the blocks whose last
    pointer is gone. *)
Definition result (r : Z -> Z) (thrifty : Prop) (res : option (heap * csr)) : Prop :=
  exists h' o' d, res = Some (h', o') /\ okh h' /\ wf o' /\
    (forall x, 0 <= d x) /\ acc h' o' (fun x => r x + d x) /\
    (thrifty -> tidy o' /\ forall x, d x = 0).

Definition dealloced (o : csr) : csr :=
  if is_pool (rp o) then
    Csr PNull PNull PNull PNull PNull PNull PNull (own o) false
  else if own o then Csr PNull PNull PNull PNull PNull PNull PNull true (brw o)
  else Csr (rp o) (ci o) (va o) PNull PNull PNull (ep o) false (brw o).

Definition dlost (o : csr) (x : Z) : Z := if is_pool (rp o) then hc o x else 0.

Ltac ranges x :=
  repeat match goal with
  | |- context [cnt ?p x] =>
      lazymatch goal with
      | _ : 0 <= cnt p x <= 1 |- _ => fail
      | _ => pose proof (cnt_range p x)
      end
  | _ : context [cnt ?p x] |- _ =>
      lazymatch goal with
      | _ : 0 <= cnt p x <= 1 |- _ => fail
      | _ => pose proof (cnt_range p x)
      end
  end.

Ltac counts :=
  let x := fresh "x" in
  intros x;
  repeat match goal with
  | H : forall y : Z, lc ?h y = _ |- _ => specialize (H x)
  | H : acc _ _ _ |- _ => specialize (H x)
  | H : forall y : Z, 0 <= _ |- _ => specialize (H x)
  | H : forall y : Z, _ = 0 |- _ => specialize (H x)
  end;
  cbv beta in *;
  unfold hc, dlost in *; cbn [rp ci va idg dg dp ep own brw] in *;
  repeat match goal with
  | H : brw ?o = _ |- _ => rewrite H in *
  end;
  cbn [cnt] in *;
  ranges x; try lia.

Lemma dealloc_spec h o r : okh h -> wf o -> acc h o r ->
  exists h', c_dealloc h o = Some (h', dealloced o) /\ okh h' /\
    wf (dealloced o) /\ forall x, lc h' x = hc (dealloced o) x + r x + dlost o x.
Proof.
  intros O (W1 & W2 & W3) A. destruct W1 as (Wi & Wg & Wd & We).
  unfold c_dealloc, dealloced, dlost.
  destruct (is_pool (rp o)) eqn:Ep.
  - exists h. split; [reflexivity|]. split; [exact O|]. split.
    + split; [cbn; tauto|]. split; cbn; [tauto|reflexivity].
    + intros x. specialize (A x).
      change (hc (Csr PNull PNull PNull PNull PNull PNull PNull (own o) false) x) with 0.
      lia.
  - destruct (own o) eqn:Eo.
    + pose proof (W3 eq_refl) as Eb. destruct (W2 Eb) as ((Wr & Wc & Wv) & _).
      destruct (free_spec h (rp o)) as (h1 & E1 & O1 & L1); [exact O|exact Wr|counts|].
      rewrite E1. cbv beta iota.
      destruct (free_spec h1 (ep o)) as (h2 & E2 & O2 & L2); [exact O1|exact We|counts|].
      rewrite E2. cbv beta iota.
      destruct (free_spec h2 (ci o)) as (h3 & E3 & O3 & L3); [exact O2|exact Wc|counts|].
      rewrite E3. cbv beta iota.
      destruct (free_spec h3 (va o)) as (h4 & E4 & O4 & L4); [exact O3|exact Wv|counts|].
      rewrite E4. cbv beta iota.
      destruct (free_spec h4 (idg o)) as (h5 & E5 & O5 & L5); [exact O4|exact Wi|counts|].
      rewrite E5. cbv beta iota.
      destruct (free_spec h5 (dg o)) as (h6 & E6 & O6 & L6); [exact O5|exact Wg|counts|].
      rewrite E6. cbv beta iota.
      destruct (free_spec h6 (dp o)) as (h7 & E7 & O7 & L7); [exact O6|exact Wd|counts|].
      rewrite E7. cbv beta iota.
      exists h7. split; [reflexivity|]. split; [exact O7|]. split.
      * split; [cbn; tauto|]. split; cbn; [tauto|intros; exact Eb].
      * counts.
    + cbv beta iota.
      destruct (free_spec h (idg o)) as (h5 & E5 & O5 & L5);
        [exact O|exact Wi|destruct (brw o) eqn:Eb; counts|].
      rewrite E5. cbv beta iota.
      destruct (free_spec h5 (dg o)) as (h6 & E6 & O6 & L6);
        [exact O5|exact Wg|destruct (brw o) eqn:Eb; counts|].
      rewrite E6. cbv beta iota.
      destruct (free_spec h6 (dp o)) as (h7 & E7 & O7 & L7);
        [exact O6|exact Wd|destruct (brw o) eqn:Eb; counts|].
      rewrite E7. cbv beta iota.
      exists h7. split; [reflexivity|]. split; [exact O7|]. split.
      * split; [cbn; tauto|]. split; cbn; [exact W2|discriminate].
      * destruct (brw o) eqn:Eb; counts.
Qed.

Lemma dealloced_own o : own (dealloced o) = own o.
Proof. unfold dealloced. destruct (is_pool (rp o)); [reflexivity|]. destruct (own o); reflexivity. Qed.

Lemma dealloced_tidy o : wf o -> tidy o ->
  tidy (dealloced o) /\ (forall x, dlost o x = 0) /\ (forall x, hc (dealloced o) x = 0).
Proof.
  intros (W1 & W2 & W3) T. unfold dlost, dealloced.
  destruct (is_pool (rp o)) eqn:Ep.
  - assert (Er : rp o = PPool) by (destruct (rp o); try discriminate; reflexivity).
    destruct T as [T|(T1 & T2 & T3 & T4)].
    + exfalso. destruct (W2 (W3 T)) as ((B & _) & _). rewrite Er in B. exact B.
    + destruct (T4 Er) as (A1 & A2 & A3).
      destruct T3 as [T3|(T3 & _)]; [|rewrite Er in T3; discriminate].
      split; [|split].
      * right. cbn. rewrite T1. split; [reflexivity|]. split; [reflexivity|].
        split; [right; repeat split; reflexivity|discriminate].
      * intros x. unfold hc. rewrite T3, A1, A2, A3, T2. reflexivity.
      * intros x. reflexivity.
  - destruct T as [T|(T1 & T2 & T3 & T4)].
    + rewrite T. split; [left; reflexivity|]. split; intros x; [reflexivity|].
      unfold hc. cbn. destruct (brw o); reflexivity.
    + rewrite T1. split; [|split; intros x; [reflexivity|]].
      * right. cbn. split; [reflexivity|]. split; [exact T2|]. split; [exact T3|].
        intros _. repeat split; reflexivity.
      * unfold hc. cbn [rp ci va idg dg dp ep brw cnt]. rewrite T2.
        destruct T3 as [-> | (-> & -> & ->)]; [reflexivity|].
        destruct (brw o); reflexivity.
Qed.

(** One step of a chain of allocations. *)
Ltac mall O :=
  match goal with
  | |- context [let '(_, _) := malloc ?h in _] =>
      let h1 := fresh "h" in let p1 := fresh "p" in let E := fresh "E" in
      let O1 := fresh "O" in let b := fresh "b" in let Hb := fresh "Hb" in
      let L := fresh "L" in
      destruct (malloc h) as [h1 p1] eqn:E;
      destruct (malloc_spec _ _ _ E O) as (O1 & (b & Hb) & L);
      clear E; cbv beta iota
  | |- context [let '(_, _) := malloc_if ?c ?h in _] =>
      let h1 := fresh "h" in let p1 := fresh "p" in let E := fresh "E" in
      let O1 := fresh "O" in let Hb := fresh "Hb" in let L := fresh "L" in
      destruct (malloc_if c h) as [h1 p1] eqn:E;
      destruct (malloc_if_spec _ _ _ _ E O) as (O1 & Hb & L);
      clear E; cbv beta iota
  end.
Ltac malls := repeat match goal with O : okh ?h |- context [malloc ?h] => mall O
                      | O : okh ?h |- context [malloc_if _ ?h] => mall O end.

(** What [alloc] forgets. *)
Definition alost (d : bool) (o : csr) (x : Z) : Z :=
  (if brw o then 0 else cnt (rp o) x + cnt (ci o) x + cnt (va o) x) + cnt (dp o) x +
  (if d then cnt (idg o) x + cnt (dg o) x else 0).

Lemma alloc_spec d h o r : okh h -> wf o -> acc h o r ->
  exists h' o', c_alloc d h o = (h', o') /\ okh h' /\ wf o' /\ own o' = true /\
    forall x, lc h' x = hc o' x + r x + alost d o x.
Proof.
  intros O (W1 & W2 & W3) A. destruct W1 as (Wi & Wg & Wd & We).
  unfold c_alloc. destruct d.
  - malls. eexists; eexists. split; [reflexivity|].
    split; [eassumption|]. subst. split; [|split; [reflexivity|]].
    + split; [cbn; tauto|]. split; cbn; [|reflexivity].
      intros _. split; [tauto|discriminate].
    + unfold alost. destruct (brw o) eqn:Eb; counts.
  - malls. eexists; eexists. split; [reflexivity|].
    split; [eassumption|]. subst. split; [|split; [reflexivity|]].
    + split; [cbn; tauto|]. split; cbn; [|reflexivity].
      intros _. split; [tauto|discriminate].
    + unfold alost. destruct (brw o) eqn:Eb; counts.
Qed.

Lemma alost_nonneg d o x : 0 <= alost d o x.
Proof. unfold alost. ranges x. destruct (brw o), d; lia. Qed.

Lemma dlost_nonneg o x : 0 <= dlost o x.
Proof. unfold dlost. pose proof (hc_nonneg o x). destruct (is_pool (rp o)); lia. Qed.

Lemma alloc_result d h o r : okh h -> wf o -> acc h o r ->
  result r (arrays o = []) (Some (c_alloc d h o)).
Proof.
  intros O W A. destruct (alloc_spec d h o r O W A) as (h' & o' & E & O' & W' & Ho & L).
  exists h', o', (alost d o). rewrite E. split; [reflexivity|].
  split; [exact O'|]. split; [exact W'|]. split; [apply alost_nonneg|]. split.
  - intros x. specialize (A x). specialize (L x). pose proof (alost_nonneg d o x). lia.
  - intros T. split; [left; exact Ho|]. intros x.
    assert (Hn : forall p, blk p = [] -> cnt p x = 0)
      by (intros [] Hp; try reflexivity; discriminate).
    unfold arrays in T. unfold alost.
    apply app_eq_nil in T. destruct T as [T1 T2].
    apply app_eq_nil in T2. destruct T2 as [T2 T3].
    apply app_eq_nil in T3. destruct T3 as [T3 T4].
    apply app_eq_nil in T4. destruct T4 as [T4 T5].
    rewrite (Hn _ T2), (Hn _ T3), (Hn _ T4).
    destruct (brw o).
    + destruct d; lia.
    + apply app_eq_nil in T1. destruct T1 as [T1 T6].
      apply app_eq_nil in T6. destruct T6 as [T6 T7].
      rewrite (Hn _ T1), (Hn _ T6), (Hn _ T7). destruct d; lia.
Qed.

Lemma dealloc_result h o r : okh h -> wf o -> acc h o r ->
  result r (tidy o) (c_dealloc h o).
Proof.
  intros O W A. destruct (dealloc_spec h o r O W A) as (h' & E & O' & W' & L).
  exists h', (dealloced o), (dlost o). split; [exact E|].
  split; [exact O'|]. split; [exact W'|]. split; [apply dlost_nonneg|]. split.
  - intros x. specialize (A x). specialize (L x). pose proof (dlost_nonneg o x). lia.
  - intros T. destruct (dealloced_tidy o W T) as (T1 & T2 & _). split; assumption.
Qed.

Lemma alost_hc d o x : alost d o x <= hc o x.
Proof. unfold alost, hc. ranges x. destruct (brw o), d; lia. Qed.

Lemma load_bin_result k h o r : okh h -> wf o -> acc h o r ->
  result r (tidy o) (c_load_bin k h o).
Proof.
  intros O W A. destruct (dealloc_spec h o r O W A) as (h1 & E & O1 & W1 & L1).
  unfold c_load_bin. rewrite E. cbv beta iota.
  destruct k.
  - set (r1 := fun x => r x + dlost o x).
    assert (A1 : acc h1 (dealloced o) r1).
    { intros x. specialize (A x). specialize (L1 x). unfold r1.
      pose proof (dlost_nonneg o x). lia. }
    destruct (alloc_spec true h1 (dealloced o) r1 O1 W1 A1)
      as (h2 & o2 & E2 & O2 & W2 & Ho & L2).
    exists h2, o2, (fun x => dlost o x + alost true (dealloced o) x).
    rewrite E2. split; [reflexivity|]. split; [exact O2|]. split; [exact W2|].
    split; [|split].
    + intros x. pose proof (dlost_nonneg o x). pose proof (alost_nonneg true (dealloced o) x). lia.
    + intros x. specialize (A x). specialize (L2 x). unfold r1 in L2.
      pose proof (dlost_nonneg o x). pose proof (alost_nonneg true (dealloced o) x). lia.
    + intros T. split; [left; exact Ho|].
      destruct (dealloced_tidy o W T) as (T1 & T2 & T3). intros x.
      specialize (T2 x). specialize (T3 x).
      pose proof (alost_nonneg true (dealloced o) x).
      pose proof (alost_hc true (dealloced o) x). lia.
  - rewrite <- E. apply dealloc_result; assumption.
Qed.

Lemma laplacian_result h o r : okh h -> wf o -> acc h o r ->
  result r (own o = true) (c_laplacian h o).
Proof.
  intros O W A. destruct (dealloc_spec h o r O W A) as (h1 & E & O1 & W1 & L1).
  unfold c_laplacian. rewrite E. cbv beta iota.
  destruct W1 as (Wa & Wb & Wc). destruct Wa as (Wi & Wg & Wd & We).
  malls. set (o1 := dealloced o) in *.
  exists h6, (Csr p p3 p4 p1 p2 p0 (ep o1) (own o1) false),
    (fun x => dlost o x +
       ((if brw o1 then 0 else cnt (rp o1) x + cnt (ci o1) x + cnt (va o1) x) +
        cnt (idg o1) x + cnt (dg o1) x + cnt (dp o1) x)).
  split; [reflexivity|]. split; [assumption|]. subst. split; [|split; [|split]].
  - split; [cbn; tauto|]. split; cbn; [|reflexivity].
    intros _. split; [tauto|discriminate].
  - intros x. pose proof (dlost_nonneg o x). ranges x. destruct (brw o1); lia.
  - intros x. pose proof (dlost_nonneg o x). specialize (A x).
    repeat match goal with L : forall y, lc _ y = _ |- _ => specialize (L x) end.
    unfold hc in *. cbn [rp ci va idg dg dp ep brw] in *. ranges x.
    destruct (brw o1); lia.
  - intros T. split.
    + left. cbn. unfold o1. rewrite dealloced_own. exact T.
    + intros x. destruct (dealloced_tidy o W (or_introl T)) as (_ & T2 & T3).
      specialize (T2 x). specialize (T3 x). fold o1 in T3. unfold hc in T3.
      ranges x. destruct (brw o1); lia.
Qed.

Lemma wf_file0 : wf csr_file0.
Proof. split; [cbn; tauto|]. split; cbn; [tauto|reflexivity]. Qed.

Lemma wf_new : wf csr_new.
Proof. split; [cbn; tauto|]. split; cbn; [tauto|discriminate]. Qed.

Lemma acc_file0 h : acc h csr_file0 (lc h).
Proof. intros x. split; [apply lc_nonneg|reflexivity]. Qed.

Lemma acc_new h : acc h csr_new (lc h).
Proof. intros x. split; [apply lc_nonneg|reflexivity]. Qed.

Lemma load_mm_result sym h : okh h -> result (lc h) True (c_load_mm sym h csr_file0).
Proof.
  intros O. unfold c_load_mm.
  malls.
  destruct (free_spec h4 p3) as (h6 & E6 & O6 & L6); [assumption|assumption| |].
  { intros x. specialize (L3 x). specialize (L2 x). pose proof (lc_nonneg h3 x).
    ranges x. lia. }
  rewrite E6. cbv beta iota.
  destruct (free_spec h6 p2) as (h7 & E7 & O7 & L7); [assumption|assumption| |].
  { counts. pose proof (lc_nonneg h x). lia. }
  rewrite E7. cbv beta iota.
  destruct (alloc_spec true h7 csr_file0 (lc h7) O7 wf_file0 (acc_file0 h7))
    as (h8 & o8 & E8 & O8 & W8 & Ho & L8).
  rewrite E8. cbv beta iota.
  assert (L8' : forall x, lc h8 x = hc o8 x + lc h x + cnt p x + cnt p0 x + cnt p1 x).
  { intros x. specialize (L8 x). change (alost true csr_file0 x) with 0 in L8.
    repeat match goal with L : forall y, lc _ y = _ |- _ => specialize (L x) end. lia. }
  clear L8 L L0 L1 L2 L3 L6 L7.
  destruct (free_spec h8 p1) as (h9 & E9 & O9 & L9); [assumption|subst p1; exact I| |].
  { intros x. specialize (L8' x). pose proof (lc_nonneg h x). pose proof (hc_nonneg o8 x).
    ranges x. lia. }
  rewrite E9. cbv beta iota.
  destruct (free_spec h9 p0) as (h10 & E10 & O10 & L10); [assumption|subst p0; exact I| |].
  { intros x. specialize (L8' x). specialize (L9 x).
    pose proof (lc_nonneg h x). pose proof (hc_nonneg o8 x). ranges x. lia. }
  rewrite E10. cbv beta iota.
  destruct (free_spec h10 p) as (h11 & E11 & O11 & L11); [assumption|subst p; exact I| |].
  { intros x. specialize (L8' x). specialize (L9 x). specialize (L10 x).
    pose proof (lc_nonneg h x). pose proof (hc_nonneg o8 x). ranges x. lia. }
  rewrite E11. cbv beta iota.
  exists h11, o8, (fun _ => 0). split; [reflexivity|].
  split; [assumption|]. split; [assumption|]. split; [intros; lia|]. split.
  - intros x. specialize (L8' x). specialize (L9 x). specialize (L10 x). specialize (L11 x).
    pose proof (lc_nonneg h x). lia.
  - intros _. split; [left; exact Ho|reflexivity].
Qed.

Lemma result_weaken r (T T' : Prop) res : result r T res -> (T' -> T) -> result r T' res.
Proof.
  intros (h & o & d & E & O & W & D & A & F) I.
  exists h, o, d. repeat (split; [assumption|]). intros t. apply F, I, t.
Qed.

Lemma file_result src h : okh h -> result (lc h) True (c_file src h).
Proof.
  intros O. destruct src as [|k|sym]; cbn [c_file].
  - eapply result_weaken; [apply laplacian_result; [exact O|apply wf_file0|apply acc_file0]|].
    reflexivity.
  - eapply result_weaken; [apply load_bin_result; [exact O|apply wf_file0|apply acc_file0]|].
    intros _. left. reflexivity.
  - apply load_mm_result, O.
Qed.

(** [filled] for a heap. *)
Definition hvalid (h : heap) (p : ptr) : Prop :=
  match p with PNull => False | PBlk b => 1 <= lc h b | _ => True end.
Definition hfilled (h : heap) (o : csr) : Prop :=
  rp o <> PNull /\
  (brw o = true ->
   hvalid h (rp o) /\ hvalid h (ci o) /\ (va o = PNull \/ hvalid h (va o))).

Lemma valid_h s p : valid s p <-> hvalid (hp s) p.
Proof. destruct p; cbn; try tauto. apply lc_In. Qed.

Lemma filled_h s o : filled s o <-> hfilled (hp s) o.
Proof. unfold filled, hfilled. rewrite !valid_h. tauto. Qed.

Lemma use_opt_hvalid h p : p = PNull \/ hvalid h p -> use_opt h p = Some tt.
Proof.
  intros [->|H]; [reflexivity|]. unfold use_opt.
  destruct (is_null p); [reflexivity|]. apply use_spec, H.
Qed.

(** The three arrays that may be borrowed can be used. *)
Lemma filled_use h o r : wf o -> acc h o r -> hfilled h o ->
  use h (rp o) = Some tt /\ use h (ci o) = Some tt /\ use_opt h (va o) = Some tt /\
  (va o <> PNull -> use h (va o) = Some tt).
Proof.
  intros (W1 & W2 & W3) A (Fr & Fb). destruct (brw o) eqn:Eb.
  - destruct (Fb eq_refl) as (F1 & F2 & F3).
    split; [apply use_spec, F1|]. split; [apply use_spec, F2|].
    split; [apply use_opt_hvalid, F3|]. intros N.
    destruct F3 as [F3|F3]; [contradiction|]. apply use_spec, F3.
  - destruct (W2 eq_refl) as ((B1 & B2 & B3) & N).
    split; [apply use_blkn; [exact B1|exact Fr|counts]|].
    split; [apply use_blkn; [exact B2|exact (N Fr)|counts]|].
    split; [apply use_opt_blkn; [exact B3|counts]|].
    intros Nv. apply use_blkn; [exact B3|exact Nv|counts].
Qed.

Lemma read_ok h o r : wf o -> acc h o r -> hfilled h o -> c_read h o = Some tt.
Proof.
  intros W A F. destruct (filled_use h o r W A F) as (U1 & U2 & U3 & _).
  destruct W as ((Wi & Wg & Wd & We) & W2 & W3).
  unfold c_read. rewrite U1, U2, U3. cbv beta iota.
  rewrite (use_opt_blkn h (idg o)); [|exact Wi|destruct (brw o) eqn:Eb; counts].
  rewrite (use_opt_blkn h (dg o)); [|exact Wg|destruct (brw o) eqn:Eb; counts].
  rewrite (use_opt_blkn h (dp o)); [|exact Wd|destruct (brw o) eqn:Eb; counts].
  apply use_opt_blkn; [exact We|destruct (brw o) eqn:Eb; counts].
Qed.

Ltac newobj :=
  eexists; eexists; exists (fun _ => 0); split; [reflexivity|];
  split; [eassumption|]; subst; split;
  [split; [cbn; tauto|]; split; cbn;
   [intros _; split; [tauto|first [discriminate|tauto]]|try discriminate; try reflexivity]|];
  split; [intros; lia|]; split;
  [intros x;
   repeat match goal with L : forall y, lc _ y = _ |- _ => specialize (L x) end;
   unfold hc; cbn [rp ci va idg dg dp ep brw cnt];
   match goal with |- context [0 <= lc ?h0 x + 0] => pose proof (lc_nonneg h0 x) end;
   cbn [cnt] in *; lia|].

Lemma copy_result h a r : okh h -> wf a -> acc h a r -> hfilled h a ->
  result (lc h) True (c_copy h a).
Proof.
  intros O W A F. unfold c_copy. rewrite (read_ok h a r W A F). cbv beta iota.
  malls. newobj. intros _. split; [left; reflexivity|reflexivity].
Qed.

Lemma permute_result h a r : okh h -> wf a -> acc h a r -> hfilled h a ->
  result (lc h) False (c_permute h a).
Proof.
  intros O W A F. unfold c_permute. rewrite (read_ok h a r W A F). cbv beta iota.
  malls. newobj. intros [].
Qed.

Lemma transpose_result n0 h a r : okh h -> wf a -> acc h a r -> hfilled h a ->
  result (lc h) False (c_transpose n0 h a).
Proof.
  intros O W A F. unfold c_transpose. rewrite (read_ok h a r W A F). cbv beta iota.
  malls. destruct n0.
  - newobj. intros [].
  - malls. newobj. intros [].
Qed.

(** Filled and its arrays stay valid when the heap only grows. *)
Lemma hvalid_mono h h' p : (forall x, lc h x <= lc h' x) -> hvalid h p -> hvalid h' p.
Proof. intros M. destruct p; cbn; try tauto. specialize (M b). lia. Qed.

Lemma hfilled_mono h h' o : (forall x, lc h x <= lc h' x) -> hfilled h o -> hfilled h' o.
Proof.
  intros M (F1 & F2). split; [exact F1|]. intros B. destruct (F2 B) as (V1 & V2 & V3).
  split; [eapply hvalid_mono; eassumption|]. split; [eapply hvalid_mono; eassumption|].
  destruct V3 as [V3|V3]; [left; exact V3|right; eapply hvalid_mono; eassumption].
Qed.

Lemma diagptr_spec h o r : okh h -> wf o -> acc h o r -> hfilled h o ->
  exists h' o', c_diagptr h o = Some (h', o') /\ okh h' /\ wf o' /\ acc h' o' r /\
    (forall x, lc h x <= lc h' x) /\
    rp o' = rp o /\ ci o' = ci o /\ va o' = va o /\ idg o' = idg o /\ dg o' = dg o /\
    ep o' = ep o /\ own o' = own o /\ brw o' = brw o /\ dp o' <> PNull.
Proof.
  intros O W A F. unfold c_diagptr. destruct (is_null (dp o)) eqn:En.
  - malls.
    assert (F' : hfilled h0 o).
    { eapply hfilled_mono; [|exact F]. intros x. specialize (L x). ranges x. lia. }
    set (o' := Csr (rp o) (ci o) (va o) (idg o) (dg o) p (ep o) (own o) (brw o)).
    assert (W' : wf o').
    { destruct W as ((Wi & Wg & Wd & We) & W2 & W3).
      subst p. split; [cbn; tauto|]. split; [exact W2|exact W3]. }
    assert (A' : acc h0 o' r).
    { assert (En' : dp o = PNull) by (destruct (dp o); try discriminate; reflexivity).
      intros x. specialize (A x). specialize (L x). unfold o', hc in *.
      cbn [rp ci va idg dg dp ep brw] in *. rewrite En' in A. cbn [cnt] in A.
      destruct (brw o); lia. }
    destruct (filled_use h0 o' r W' A' F') as (U1 & U2 & _ & _).
    cbn in U1, U2. rewrite U1, U2. cbv beta iota.
    exists h0, o'. split; [reflexivity|]. split; [assumption|]. split; [exact W'|].
    split; [exact A'|]. split; [intros x; specialize (L x); ranges x; lia|].
    unfold o'. cbn. repeat (split; [reflexivity|]). subst p. discriminate.
  - exists h, o. split; [reflexivity|]. split; [exact O|]. split; [exact W|].
    split; [exact A|]. split; [intros; lia|]. repeat (split; [reflexivity|]).
    intros E. rewrite E in En. discriminate.
Qed.

Lemma diagptr_tidy o o' : tidy o -> rp o <> PPool ->
  rp o' = rp o -> ci o' = ci o -> va o' = va o -> ep o' = ep o ->
  own o' = own o -> brw o' = brw o -> tidy o'.
Proof.
  intros [T|(T1 & T2 & T3 & T4)] N E1 E2 E3 E4 E5 E6.
  - left. congruence.
  - right. rewrite E1, E2, E3, E4, E5, E6. repeat (split; [assumption|]).
    intros E. contradiction.
Qed.

Lemma diagptr_result h o r : okh h -> wf o -> acc h o r -> hfilled h o ->
  result r (tidy o /\ rp o <> PPool) (c_diagptr h o).
Proof.
  intros O W A F. destruct (diagptr_spec h o r O W A F)
    as (h' & o' & E & O' & W' & A' & M & Q).
  exists h', o', (fun _ => 0). split; [exact E|]. split; [exact O'|]. split; [exact W'|].
  split; [intros; lia|]. split.
  - intros x. specialize (A' x). lia.
  - intros (T & N). split; [|reflexivity].
    destruct Q as (Q1 & Q2 & Q3 & Q4 & Q5 & Q6 & Q7 & Q8 & Q9).
    eapply diagptr_tidy; eassumption.
Qed.

Lemma invdiag_result h o r : okh h -> wf o -> acc h o r -> hfilled h o -> va o <> PNull ->
  result r (tidy o /\ rp o <> PPool) (c_invdiag h o).
Proof.
  intros O W A F Nv. unfold c_invdiag. destruct (is_null (idg o)) eqn:En.
  - destruct (diagptr_spec h o r O W A F) as (h1 & o1 & E & O1 & W1 & A1 & M & Q).
    rewrite E. cbv beta iota.
    destruct Q as (Q1 & Q2 & Q3 & Q4 & Q5 & Q6 & Q7 & Q8 & Q9).
    malls.
    assert (F1 : hfilled h1 o1).
    { unfold hfilled. rewrite Q1, Q2, Q3, Q8.
      exact (hfilled_mono _ _ _ M F). }
    assert (F' : hfilled h0 o1).
    { eapply hfilled_mono; [|exact F1]. intros x. specialize (L x). ranges x. lia. }
    set (o' := Csr (rp o1) (ci o1) (va o1) p (dg o1) (dp o1) (ep o1) (own o1) (brw o1)).
    assert (W' : wf o').
    { destruct W1 as ((Wi & Wg & Wd & We) & W2 & W3).
      subst p. split; [cbn; tauto|]. split; [exact W2|exact W3]. }
    assert (A' : acc h0 o' r).
    { assert (En' : idg o1 = PNull) by (rewrite Q4; destruct (idg o); try discriminate; reflexivity).
      intros x. specialize (A1 x). specialize (L x). unfold o', hc in *.
      cbn [rp ci va idg dg dp ep brw] in *. rewrite En' in A1. cbn [cnt] in A1.
      destruct (brw o1); lia. }
    destruct (filled_use h0 o' r W' A' F') as (U1 & _ & _ & U4).
    cbn in U1, U4. rewrite U1, U4 by congruence. cbv beta iota.
    rewrite (use_blkn h0 (dp o1)); [|exact (proj1 (proj2 (proj2 (proj1 W'))))|exact Q9|].
    2:{ intros x. specialize (A' x). unfold o', hc in A'.
        cbn [rp ci va idg dg dp ep brw] in A'. ranges x. destruct (brw o1); lia. }
    cbv beta iota.
    exists h0, o', (fun _ => 0). split; [reflexivity|]. split; [assumption|].
    split; [exact W'|]. split; [intros; lia|]. split.
    + intros x. specialize (A' x). lia.
    + intros (T & N). split; [|reflexivity].
      eapply (diagptr_tidy o o'); try assumption; unfold o'; cbn; assumption.
  - exists h, o, (fun _ => 0). split; [reflexivity|]. split; [exact O|].
    split; [exact W|]. split; [intros; lia|]. split.
    + intros x. specialize (A x). lia.
    + intros (T & _). split; [exact T|reflexivity].
Qed.

(** ** All objects together *)
Definition oc (y : option csr) (x : Z) : Z :=
  match y with Some o => hc o x | None => 0 end.
Fixpoint tot (os : list (option csr)) (x : Z) : Z :=
  match os with [] => 0 | y :: os => oc y x + tot os x end.

Lemma oc_nonneg y x : 0 <= oc y x.
Proof. destruct y; cbn [oc]; [apply hc_nonneg|lia]. Qed.

Lemma tot_nonneg os x : 0 <= tot os x.
Proof. induction os as [|y os IH]; cbn [tot]; [lia|]. pose proof (oc_nonneg y x). lia. Qed.

Lemma tot_app l1 l2 x : tot (l1 ++ l2) x = tot l1 x + tot l2 x.
Proof. induction l1 as [|y l1 IH]; cbn [tot app]; [lia|]. rewrite IH. lia. Qed.

Lemma tot_upd os k y z x : nth_error os k = Some y ->
  tot (Base.upd os k z) x = tot os x - oc y x + oc z x.
Proof.
  revert k; induction os as [|w os IH]; intros [|k] E; cbn [nth_error] in E;
    try discriminate; cbn [Base.upd tot].
  - inversion E; subst. lia.
  - rewrite (IH _ E). lia.
Qed.

Lemma get_nth {A} (l : list A) a y : get l a = Some y ->
  0 <= a /\ nth_error l (Z.to_nat a) = Some y.
Proof.
  unfold get. destruct (Z.ltb_spec a 0) as [Ha|Ha]; [discriminate|]. split; [lia|assumption].
Qed.

Lemma tot_set os os' a y z x : get os a = Some y -> set os a z = Some os' ->
  tot os' x = tot os x - oc y x + oc z x.
Proof.
  intros G E. unfold set in E.
  destruct ((0 <=? a) && (a <? Zlen os)); [|discriminate]. inversion E; subst.
  apply tot_upd. exact (proj2 (get_nth _ _ _ G)).
Qed.

Lemma tot_get os a y x : get os a = Some y -> oc y x <= tot os x.
Proof.
  intros G. apply get_nth in G. destruct G as [_ G]. revert G.
  generalize (Z.to_nat a) as k. induction os as [|w os IH]; intros [|k] E;
    cbn [nth_error] in E; try discriminate; cbn [tot].
  - inversion E; subst. pose proof (tot_nonneg os x). lia.
  - specialize (IH _ E). pose proof (oc_nonneg w x). lia.
Qed.

Lemma obj_get s a o : obj s a = Some o -> get (objs s) a = Some (Some o).
Proof. unfold obj. destruct (get (objs s) a) as [[w|]|]; congruence. Qed.

Definition Inv (s : state) (lost : Z -> Z) : Prop :=
  okh (hp s) /\ (forall a o, obj s a = Some o -> wf o) /\
  forall x, 0 <= lost x /\ lc (hp s) x = tot (objs s) x + lost x.

Definition Tidy (s : state) : Prop := forall a o, obj s a = Some o -> tidy o.

(** What a step must do. *)
Definition steps (s : state) (lost : Z -> Z) (thrifty : Prop) (res : option state) : Prop :=
  exists s' lost', res = Some s' /\ Inv s' lost' /\ (forall x, lost x <= lost' x) /\
    (thrifty -> Tidy s -> Tidy s' /\ forall x, lost' x = lost x).

(** Everything beside object [o]. *)
Definition beside (s : state) (o : csr) (lost : Z -> Z) (x : Z) : Z :=
  tot (objs s) x - hc o x + lost x.

Lemma inv_acc s lost a o : Inv s lost -> obj s a = Some o ->
  acc (hp s) o (beside s o lost).
Proof.
  intros (O & W & L) G x. specialize (L x).
  pose proof (tot_get _ _ _ x (obj_get _ _ _ G)) as H. cbn [oc] in H.
  unfold beside. lia.
Qed.

Lemma obj_add s ho a o : obj (add s ho) a = Some o ->
  obj s a = Some o \/ o = snd ho.
Proof.
  unfold obj, add. cbn [objs]. intros H.
  destruct (Z.lt_ge_cases a (Zlen (objs s))) as [L|L].
  - rewrite get_app_l in H by exact L. left. exact H.
  - right. rewrite get_app_r in H by exact L.
    destruct (get [Some (snd ho)] (a - Zlen (objs s))) as [y|] eqn:E; [|discriminate].
    apply get_In in E. destruct E as [<-|[]]. inversion H. reflexivity.
Qed.

Lemma add_steps s lost thr res : Inv s lost ->
  result (lc (hp s)) thr res ->
  steps s lost thr (r <- res ;; Some (add s r)).
Proof.
  intros (O & W & L) (h' & o' & d & E & O' & W' & D & A & F). rewrite E. cbv beta iota.
  exists (add s (h', o')), (fun x => lost x + d x). split; [reflexivity|].
  split; [|split].
  - split; [exact O'|]. split.
    + intros a o H. apply obj_add in H. destruct H as [H|H]; [exact (W _ _ H)|].
      cbn in H. subst. exact W'.
    + intros x. cbn [add fst snd hp objs]. rewrite tot_app. cbn [tot oc].
      specialize (A x). specialize (L x). specialize (D x). lia.
  - intros x. specialize (D x). lia.
  - intros T TT. destruct (F T) as (F1 & F2). split.
    + intros a o H. apply obj_add in H. destruct H as [H|H]; [exact (TT _ _ H)|].
      cbn in H. subst. exact F1.
    + intros x. specialize (F2 x). lia.
Qed.

Lemma obj_put s a ho s' : put s a ho = Some s' ->
  hp s' = fst ho /\ obj s' a = Some (snd ho) /\
  (forall b, b <> a -> obj s' b = obj s b) /\
  (forall y x, get (objs s) a = Some y ->
     tot (objs s') x = tot (objs s) x - oc y x + hc (snd ho) x).
Proof.
  unfold put. destruct (set (objs s) a (Some (snd ho))) as [os|] eqn:E; [|discriminate].
  intros H. inversion H; subst; clear H. cbn [hp objs]. split; [reflexivity|].
  split; [|split].
  - unfold obj. cbn [objs]. rewrite (get_set_same _ _ _ _ E). reflexivity.
  - intros b N. unfold obj. cbn [objs]. rewrite (get_set_other _ _ _ _ _ E) by exact N.
    reflexivity.
  - intros y x G. rewrite (tot_set _ _ _ _ _ x G E). reflexivity.
Qed.

Lemma put_ok s a o ho : obj s a = Some o -> exists s', put s a ho = Some s'.
Proof.
  intros G. apply obj_get, get_Some_bounds in G. unfold put.
  destruct (set_ok (objs s) a (Some (snd ho)) G) as (os & E). rewrite E.
  eexists. reflexivity.
Qed.

Lemma put_steps s lost thr a o res : Inv s lost -> obj s a = Some o ->
  result (beside s o lost) (thr /\ tidy o) res ->
  steps s lost thr (r <- res ;; put s a r).
Proof.
  intros (O & W & L) G (h' & o' & d & E & O' & W' & D & A & F). rewrite E. cbv beta iota.
  destruct (put_ok s a o (h', o') G) as (s' & P).
  destruct (obj_put _ _ _ _ P) as (P1 & P2 & P3 & P4). cbn [fst snd] in *.
  exists s', (fun x => lost x + d x). split; [exact P|]. split; [|split].
  - split; [rewrite P1; exact O'|]. split.
    + intros b q H. destruct (Z.eq_dec b a) as [->|N].
      * rewrite P2 in H. inversion H; subst. exact W'.
      * rewrite P3 in H by exact N. exact (W _ _ H).
    + intros x. rewrite P1, (P4 _ x (obj_get _ _ _ G)). cbn [oc].
      specialize (A x). specialize (L x). specialize (D x). unfold beside in A. lia.
  - intros x. specialize (D x). lia.
  - intros T TT. destruct (F (conj T (TT _ _ G))) as (F1 & F2). split.
    + intros b q H. destruct (Z.eq_dec b a) as [->|N].
      * rewrite P2 in H. inversion H; subst. exact F1.
      * rewrite P3 in H by exact N. exact (TT _ _ H).
    + intros x. specialize (F2 x). lia.
Qed.

Lemma put_inv s lost a o h' o' lost' s' : Inv s lost -> obj s a = Some o ->
  okh h' -> wf o' ->
  (forall x, 0 <= lost' x /\ lc h' x = hc o' x + tot (objs s) x - hc o x + lost' x) ->
  put s a (h', o') = Some s' -> Inv s' lost'.
Proof.
  intros (O & W & L) G O' W' C P.
  destruct (obj_put _ _ _ _ P) as (P1 & P2 & P3 & P4). cbn [fst snd] in *.
  split; [rewrite P1; exact O'|]. split.
  - intros b q H. destruct (Z.eq_dec b a) as [->|N].
    + rewrite P2 in H. inversion H; subst. exact W'.
    + rewrite P3 in H by exact N. exact (W _ _ H).
  - intros x. rewrite P1, (P4 _ x (obj_get _ _ _ G)). cbn [oc]. specialize (C x). lia.
Qed.

Lemma blk_cnt p x : Z.of_nat (count_occ Z.eq_dec (blk p) x) = cnt p x.
Proof.
  destruct p; cbn [blk cnt count_occ]; try reflexivity.
  destruct (Z.eq_dec b x); reflexivity.
Qed.

Lemma arrays_hc o x : Z.of_nat (count_occ Z.eq_dec (arrays o) x) = hc o x.
Proof.
  unfold arrays, hc. destruct (brw o); cbn [app];
    rewrite !count_occ_app, !Nat2Z.inj_add, !blk_cnt; lia.
Qed.

Lemma not_arrays o b : ~ In b (arrays o) -> hc o b = 0.
Proof.
  intros N. rewrite <- arrays_hc. rewrite (count_occ_not_In Z.eq_dec) in N. lia.
Qed.

(** An array that is borrowed from neither of them outlives both. *)
Lemma hvalid_dealloc h h' o r p : acc h o r ->
  (forall x, lc h' x = hc (dealloced o) x + r x + dlost o x) ->
  (forall b, In b (blk p) -> hc o b = 0) -> hvalid h p -> hvalid h' p.
Proof.
  intros A L N. destruct p as [|b| |]; cbn [hvalid]; try tauto. intros V.
  specialize (A b). specialize (L b). specialize (N b (or_introl eq_refl)).
  pose proof (hc_nonneg (dealloced o) b). pose proof (dlost_nonneg o b). lia.
Qed.

Lemma acc_grow h h' o r : acc h o r -> (forall x, lc h x <= lc h' x) ->
  acc h' o (fun x => r x + (lc h' x - lc h x)).
Proof. intros A M x. specialize (A x). specialize (M x). lia. Qed.

Lemma splitLU_steps s lost a l u : Inv s lost -> usable s (OSplitLU a l u) ->
  steps s lost (frugal s (OSplitLU a l u)) (s_splitLU s a l u).
Proof.
  intros I (Nal & Nau & Nlu & oa & ol & ou & Ga & Gl & Gu & Fa & Va & Ia & Bo).
  pose proof I as (O & W & L). apply filled_h in Fa.
  pose proof (W _ _ Ga) as Wa. pose proof (W _ _ Gl) as Wl. pose proof (W _ _ Gu) as Wu.
  unfold s_splitLU. rewrite Ga.
  rewrite (read_ok _ _ _ Wa (inv_acc _ _ _ _ I Ga) Fa). rewrite Gl.
  cbv beta iota.
  pose proof (inv_acc _ _ _ _ I Gl) as Al.
  destruct (dealloc_spec _ _ _ O Wl Al) as (h1 & E1 & O1 & Wl1 & L1).
  rewrite E1. cbv beta iota.
  destruct (put_ok s l ol (h1, dealloced ol) Gl) as (s1 & P1). rewrite P1. cbv beta iota.
  assert (I1 : Inv s1 (fun x => lost x + dlost ol x)).
  { eapply (put_inv s lost l ol); try eassumption. intros x. specialize (L x).
    specialize (L1 x). unfold beside in L1. pose proof (dlost_nonneg ol x). lia. }
  destruct (obj_put _ _ _ _ P1) as (H1 & G1l & G1 & T1). cbn [fst snd] in *.
  rewrite (G1 u) by congruence. rewrite Gu.
  assert (Gu1 : obj s1 u = Some ou) by (rewrite (G1 u) by congruence; exact Gu).
  assert (Ga1 : obj s1 a = Some oa) by (rewrite (G1 a) by congruence; exact Ga).
  cbv beta iota.
  assert (O1' : okh (hp s1)) by (rewrite H1; exact O1).
  pose proof (inv_acc _ _ _ _ I1 Gu1) as Au.
  destruct (dealloc_spec _ _ _ O1' Wu Au) as (h2 & E2 & O2 & Wu2 & L2).
  rewrite E2. cbv beta iota.
  destruct (put_ok s1 u ou (h2, dealloced ou) Gu1) as (s2 & P2). rewrite P2. cbv beta iota.
  assert (I2 : Inv s2 (fun x => lost x + dlost ol x + dlost ou x)).
  { eapply (put_inv s1 _ u ou); try eassumption. intros x. destruct I1 as (_ & _ & C).
    specialize (C x). cbv beta in C.
    specialize (L2 x). unfold beside in L2. pose proof (dlost_nonneg ou x). lia. }
  destruct (obj_put _ _ _ _ P2) as (H2 & G2u & G2 & T2). cbn [fst snd] in *.
  assert (Ga2 : obj s2 a = Some oa) by (rewrite (G2 a) by congruence; exact Ga1).
  assert (Gl2 : obj s2 l = Some (dealloced ol)) by (rewrite (G2 l) by congruence; exact G1l).
  rewrite Ga2, Gl2, G2u. cbv beta iota zeta.
  assert (Fa2 : hfilled (hp s2) oa).
  { destruct Fa as (F1 & F2). split; [exact F1|]. intros B. specialize (F2 B).
    destruct F2 as (V1 & V2 & V3).
    assert (Hm : forall p, (forall b, In b (blk p) -> In b (blk (rp oa) ++ blk (ci oa) ++ blk (va oa))) ->
                   hvalid (hp s) p -> hvalid (hp s2) p).
    { intros p Hp V.
      assert (V' : hvalid (hp s1) p).
      { rewrite H1. eapply hvalid_dealloc; [exact Al|exact L1| |exact V].
        intros b Hb. apply not_arrays. exact (proj1 (Bo B b (Hp b Hb))). }
      rewrite H2. eapply hvalid_dealloc; [exact Au|exact L2| |exact V'].
      intros b Hb. apply not_arrays. exact (proj2 (Bo B b (Hp b Hb))). }
    split; [apply Hm; [|exact V1]|split; [apply Hm; [|exact V2]|]].
    - intros b Hb. apply in_or_app. left. exact Hb.
    - intros b Hb. apply in_or_app. right. apply in_or_app. left. exact Hb.
    - destruct V3 as [V3|V3]; [left; exact V3|right]. apply Hm; [|exact V3].
      intros b Hb. apply in_or_app. right. apply in_or_app. right. exact Hb. }
  pose proof (inv_acc _ _ _ _ I2 Ga2) as Aa2.
  assert (O2' : okh (hp s2)) by (rewrite H2; exact O2).
  clear I1 E1 E2 Al Au L1 L2 O1 O2 O1' P1 P2.
  set (ol2 := dealloced ol) in *. set (ou2 := dealloced ou) in *.
  remember (hp s2) as g0 eqn:Eg0.
  (* extptr of U *)
  remember (if is_null (ep oa) then (g0, ep ou2) else malloc g0) as ge eqn:Ege.
  destruct ge as [g1 e].
  assert (He : okh g1 /\ blkn e /\ (forall x, lc g0 x <= lc g1 x) /\
    exists f, (forall x, 0 <= f x <= cnt (ep ou2) x) /\
      (forall x, lc g1 x = lc g0 x + cnt e x - f x)).
  { destruct (is_null (ep oa)).
    - inversion Ege; subst e g1. split; [exact O2'|].
      split; [exact (proj2 (proj2 (proj2 (proj1 Wu2))))|]. split; [intros; lia|].
      exists (cnt (ep ou2)). split; intros x; ranges x; lia.
    - symmetry in Ege. destruct (malloc_spec _ _ _ Ege O2') as (A1 & (b & A2) & A3).
      split; [exact A1|]. split; [subst e; exact Logic.I|].
      split; [intros x; specialize (A3 x); ranges x; lia|].
      exists (fun _ => 0). split; intros x; specialize (A3 x); ranges x; lia. }
  destruct He as (Og1 & Be & Mg & f & Hf & Lg1). clear Ege.
  destruct (malloc g1) as [g2 lr] eqn:E2.
  destruct (malloc_spec _ _ _ E2 Og1) as (Og2 & (b2 & Hb2) & Lg2).
  cbv beta iota. clear E2.
  destruct (malloc g2) as [g3 ur] eqn:E3.
  destruct (malloc_spec _ _ _ E3 Og2) as (Og3 & (b3 & Hb3) & Lg3).
  cbv beta iota. clear E3.
  destruct (malloc g3) as [g4 li] eqn:E4.
  destruct (malloc_spec _ _ _ E4 Og3) as (Og4 & (b4 & Hb4) & Lg4).
  cbv beta iota. clear E4.
  destruct (malloc g4) as [g5 ui] eqn:E5.
  destruct (malloc_spec _ _ _ E5 Og4) as (Og5 & (b5 & Hb5) & Lg5).
  cbv beta iota. clear E5.
  assert (M : forall x, lc g0 x <= lc g5 x).
  { intros x. specialize (Mg x). specialize (Lg2 x). specialize (Lg3 x).
    specialize (Lg4 x). specialize (Lg5 x). ranges x. lia. }
  pose proof (acc_grow _ _ _ _ Aa2 M) as Aa5.
  pose proof (hfilled_mono _ _ _ M Fa2) as Fa5.
  rewrite (read_ok _ _ _ Wa Aa5 Fa5).
  destruct (filled_use _ _ _ Wa Aa5 Fa5) as (_ & _ & _ & U4). rewrite (U4 Va).
  rewrite (use_blkn g5 (idg oa) (proj1 (proj1 Wa)) Ia).
  2:{ intros x. specialize (Aa5 x). unfold hc in Aa5. ranges x. destruct (brw oa); lia. }
  cbv beta iota.
  destruct (malloc g5) as [g6 lci] eqn:E6.
  destruct (malloc_spec _ _ _ E6 Og5) as (Og6 & (b6 & Hb6) & Lg6).
  cbv beta iota. clear E6.
  destruct (malloc g6) as [g7 lv] eqn:E7.
  destruct (malloc_spec _ _ _ E7 Og6) as (Og7 & (b7 & Hb7) & Lg7).
  cbv beta iota. clear E7.
  destruct (malloc g7) as [g8 uc] eqn:E8.
  destruct (malloc_spec _ _ _ E8 Og7) as (Og8 & (b8 & Hb8) & Lg8).
  cbv beta iota. clear E8.
  destruct (malloc g8) as [g9 uv] eqn:E9.
  destruct (malloc_spec _ _ _ E9 Og8) as (Og9 & (b9 & Hb9) & Lg9).
  cbv beta iota. clear E9.
  set (ol3 := Csr lr lci lv li (dg ol2) (dp ol2) (ep ol2) (own ol2) false).
  set (ou3 := Csr ur uc uv ui (dg ou2) (dp ou2) e (own ou2) false).
  assert (Wl3 : wf ol3).
  { destruct Wl1 as ((A1 & A2 & A3 & A4) & _ & _). subst.
    split; [cbn; tauto|]. split; cbn; [|reflexivity]. intros _. split; [tauto|discriminate]. }
  assert (Wu3 : wf ou3).
  { destruct Wu2 as ((A1 & A2 & A3 & A4) & _ & _). subst.
    split; [cbn; tauto|]. split; cbn; [|reflexivity]. intros _. split; [tauto|discriminate]. }
  destruct (put_ok s2 l ol2 (g9, ol3) Gl2) as (s3 & P3). rewrite P3. cbv beta iota.
  destruct (obj_put _ _ _ _ P3) as (H3 & G3l & G3 & T3). cbn [fst snd] in *.
  assert (Gu3 : obj s3 u = Some ou2) by (rewrite (G3 u) by congruence; exact G2u).
  destruct (put_ok s3 u ou2 (g9, ou3) Gu3) as (s4 & P4). rewrite P4.
  destruct (obj_put _ _ _ _ P4) as (H4 & G4u & G4 & T4). cbn [fst snd] in *.
  set (lost2 := fun x => lost x + dlost ol x + dlost ou x) in *.
  set (bl := fun x => (if brw ol2 then 0 else cnt (rp ol2) x + cnt (ci ol2) x + cnt (va ol2) x)
                      + cnt (idg ol2) x).
  set (bu := fun x => (if brw ou2 then 0 else cnt (rp ou2) x + cnt (ci ou2) x + cnt (va ou2) x)
                      + cnt (idg ou2) x).
  assert (C3 : forall x, lc g9 x = lc g0 x + cnt e x - f x + cnt lr x + cnt ur x + cnt li x
                 + cnt ui x + cnt lci x + cnt lv x + cnt uc x + cnt uv x).
  { intros x. specialize (Lg1 x). specialize (Lg2 x). specialize (Lg3 x). specialize (Lg4 x).
    specialize (Lg5 x). specialize (Lg6 x). specialize (Lg7 x). specialize (Lg8 x).
    specialize (Lg9 x). lia. }
  assert (Hl3 : forall x, hc ol3 x + bl x
            = hc ol2 x + cnt lr x + cnt lci x + cnt lv x + cnt li x).
  { intros x. unfold bl, ol3, hc. cbn [rp ci va idg dg dp ep brw]. destruct (brw ol2); lia. }
  assert (Hu3 : forall x, hc ou3 x + bu x + cnt (ep ou2) x
            = hc ou2 x + cnt ur x + cnt uc x + cnt uv x + cnt ui x + cnt e x).
  { intros x. unfold bu, ou3, hc. cbn [rp ci va idg dg dp ep brw]. destruct (brw ou2); lia. }
  assert (Bl0 : forall x, 0 <= bl x) by (intros x; unfold bl; ranges x; destruct (brw ol2); lia).
  assert (Bu0 : forall x, 0 <= bu x) by (intros x; unfold bu; ranges x; destruct (brw ou2); lia).
  assert (Ble : forall x, bl x <= hc ol2 x)
    by (intros x; unfold bl, hc; ranges x; destruct (brw ol2); lia).
  assert (Bue : forall x, bu x + cnt (ep ou2) x <= hc ou2 x)
    by (intros x; unfold bu, hc; ranges x; destruct (brw ou2); lia).
  assert (Hl2 : forall x, lost2 x = lost x + dlost ol x + dlost ou x) by reflexivity.
  assert (Owl : own ol3 = own ol) by (unfold ol3, ol2; cbn; apply dealloced_own).
  assert (Owu : own ou3 = own ou) by (unfold ou3, ou2; cbn; apply dealloced_own).
  assert (Zd : own ol = true -> own ou = true ->
    (forall x, dlost ol x = 0) /\ (forall x, hc ol2 x = 0) /\
    (forall x, dlost ou x = 0) /\ (forall x, hc ou2 x = 0)).
  { intros Fl Fu. destruct (dealloced_tidy ol Wl (or_introl Fl)) as (_ & Dl & Zl).
    destruct (dealloced_tidy ou Wu (or_introl Fu)) as (_ & Du & Zu). tauto. }
  clearbody lost2 bl bu ol3 ou3 ol2 ou2.
  assert (C2 : forall x, 0 <= lost2 x /\ lc g0 x = tot (objs s2) x + lost2 x).
  { subst g0. exact (proj2 (proj2 I2)). }
  assert (I3 : Inv s3 (fun x => lost2 x + bl x + cnt e x - f x
                 + cnt ur x + cnt ui x + cnt uc x + cnt uv x)).
  { apply (put_inv s2 lost2 l ol2 g9 ol3); try assumption. intros x.
    specialize (C3 x). specialize (Hl3 x). specialize (Bl0 x). specialize (C2 x).
    specialize (Mg x). specialize (Lg1 x). cbv beta. ranges x. lia. }
  assert (I4 : Inv s4 (fun x => lost2 x + bl x + bu x + (cnt (ep ou2) x - f x))).
  { eapply (put_inv s3 _ u ou2 g9 ou3); [exact I3|assumption..|idtac|exact P4]. intros x.
    destruct I3 as (_ & _ & C). specialize (C x). cbv beta in C. rewrite H3 in C.
    specialize (Hu3 x). specialize (Bl0 x). specialize (Bu0 x). specialize (C2 x).
    specialize (Hf x). cbv beta. lia. }
  exists s4, (fun x => lost2 x + bl x + bu x + (cnt (ep ou2) x - f x)).
  split; [reflexivity|]. split; [exact I4|]. split.
  - intros x. specialize (Bl0 x). specialize (Bu0 x). specialize (Hf x).
    rewrite Hl2. pose proof (dlost_nonneg ol x). pose proof (dlost_nonneg ou x). lia.
  - intros (Fl & Fu) TT. specialize (Fl _ Gl). specialize (Fu _ Gu).
    destruct (Zd Fl Fu) as (Dl & Zl & Du & Zu). split.
    + intros b q Hq. destruct (Z.eq_dec b u) as [->|Nu].
      * rewrite G4u in Hq. inversion Hq; subst q. left. congruence.
      * rewrite (G4 b) in Hq by exact Nu. destruct (Z.eq_dec b l) as [->|Nl].
        -- rewrite G3l in Hq. inversion Hq; subst q. left. congruence.
        -- rewrite (G3 b), (G2 b), (G1 b) in Hq by assumption. exact (TT _ _ Hq).
    + intros x. specialize (Dl x). specialize (Du x). specialize (Zl x). specialize (Zu x).
      specialize (Bl0 x). specialize (Bu0 x). specialize (Hf x). rewrite Hl2.
      specialize (Ble x). specialize (Bue x). ranges x. lia.
Qed.

(** ** Every step *)
Lemma result_some r (T : Prop) h o : okh h -> wf o -> acc h o r -> (T -> tidy o) ->
  result r T (Some (h, o)).
Proof.
  intros O W A F. exists h, o, (fun _ => 0). split; [reflexivity|].
  split; [exact O|]. split; [exact W|]. split; [intros; lia|]. split.
  - intros x. specialize (A x). lia.
  - intros t. split; [exact (F t)|reflexivity].
Qed.

Lemma steps_weaken s lost (T T' : Prop) res : steps s lost T res -> (T' -> T) ->
  steps s lost T' res.
Proof.
  intros (s' & l' & E & I & M & F) H. exists s', l'. repeat (split; [assumption|]).
  intros t. apply F, H, t.
Qed.

Theorem step_steps s lost x : Inv s lost -> usable s x ->
  steps s lost (frugal s x) (step s x).
Proof.
  intros I U. pose proof I as (O & W & L).
  destruct x as [| |a|src|r c v|a d|a|a|a k|a|a|a|a|a|a n0|a l u]; cbn [step usable frugal] in *.
  - apply (add_steps s lost True (Some (hp s, csr_new)) I).
    apply result_some; [exact O|apply wf_new|apply acc_new|].
    intros _. right. cbn. split; [reflexivity|]. split; [reflexivity|].
    split; [right; repeat split; reflexivity|discriminate].
  - apply (add_steps s lost True (Some (c_alloc true (hp s) csr_new)) I).
    eapply result_weaken; [apply alloc_result; [exact O|apply wf_new|apply acc_new]|].
    reflexivity.
  - destruct U as (o & G & F). rewrite G. cbv beta iota. apply add_steps; [exact I|].
    eapply copy_result; [exact O|exact (W _ _ G)|exact (inv_acc _ _ _ _ I G)|].
    apply filled_h, F.
  - apply add_steps; [exact I|]. apply file_result, O.
  - apply valid_h in U. rewrite (use_spec _ _ U). cbv beta iota.
    apply (add_steps s lost True (Some (hp s, Csr r c v PNull PNull PNull PNull false true)) I).
    apply result_some; [exact O| | |].
    + split; [cbn; tauto|]. split; cbn; discriminate.
    + intros x. split; [apply lc_nonneg|reflexivity].
    + intros _. right. cbn. split; [reflexivity|]. split; [reflexivity|].
      split; [left; reflexivity|]. intros _. repeat split; reflexivity.
  - destruct U as (o & G). rewrite G. cbv beta iota.
    apply (put_steps s lost _ a o (Some (c_alloc d (hp s) o)) I G).
    eapply result_weaken;
      [apply alloc_result; [exact O|exact (W _ _ G)|exact (inv_acc _ _ _ _ I G)]|].
    intros (F & _). exact (F _ eq_refl).
  - destruct U as (o & G). rewrite G. cbv beta iota.
    apply (put_steps s lost _ a o _ I G).
    eapply result_weaken;
      [apply dealloc_result; [exact O|exact (W _ _ G)|exact (inv_acc _ _ _ _ I G)]|].
    intros (_ & T). exact T.
  - destruct U as (o & G). rewrite G. cbv beta iota.
    destruct (dealloc_spec _ _ _ O (W _ _ G) (inv_acc _ _ _ _ I G))
      as (h' & E & O' & W' & L'). rewrite E. cbv beta iota.
    pose proof (obj_get _ _ _ G) as G'.
    destruct (set_ok (objs s) a None (get_Some_bounds _ _ _ G')) as (os & Es).
    rewrite Es. cbn [fst].
    assert (Ob : forall b q, obj (St h' os) b = Some q -> obj s b = Some q).
    { intros b q Hq. unfold obj in *. cbn [objs] in Hq.
      destruct (Z.eq_dec b a) as [->|N].
      - rewrite (get_set_same _ _ _ _ Es) in Hq. discriminate.
      - rewrite (get_set_other _ _ _ _ _ Es) in Hq by exact N. exact Hq. }
    exists (St h' os), (fun x => lost x + dlost o x + hc (dealloced o) x).
    split; [reflexivity|]. split; [split; [exact O'|split]|split].
    + intros b q Hq. exact (W _ _ (Ob _ _ Hq)).
    + intros x. cbn [hp objs]. rewrite (tot_set _ _ _ _ _ x G' Es). cbn [oc].
      specialize (L' x). specialize (L x). unfold beside in L'.
      pose proof (dlost_nonneg o x). pose proof (hc_nonneg (dealloced o) x). lia.
    + intros x. pose proof (dlost_nonneg o x). pose proof (hc_nonneg (dealloced o) x). lia.
    + intros _ TT. split; [intros b q Hq; exact (TT _ _ (Ob _ _ Hq))|].
      destruct (dealloced_tidy o (W _ _ G) (TT _ _ G)) as (_ & D & Z). intros x.
      specialize (D x). specialize (Z x). lia.
  - destruct U as (o & G). rewrite G. cbv beta iota.
    apply (put_steps s lost _ a o _ I G).
    eapply result_weaken;
      [apply load_bin_result; [exact O|exact (W _ _ G)|exact (inv_acc _ _ _ _ I G)]|].
    intros (_ & T). exact T.
  - destruct U as (o & G). rewrite G. cbv beta iota.
    apply (put_steps s lost _ a o _ I G).
    eapply result_weaken;
      [apply laplacian_result; [exact O|exact (W _ _ G)|exact (inv_acc _ _ _ _ I G)]|].
    intros (F & _). exact (F _ eq_refl).
  - destruct U as (o & G). rewrite G. cbv beta iota.
    destruct (malloc (hp s)) as [h e] eqn:E. cbv beta iota.
    destruct (malloc_spec _ _ _ E O) as (O' & (b & Hb) & L').
    set (o' := Csr (rp o) (ci o) (va o) (idg o) (dg o) (dp o) e (own o) (brw o)).
    apply (put_steps s lost _ a o (Some (h, o')) I G).
    pose proof (inv_acc _ _ _ _ I G) as A.
    exists h, o', (cnt (ep o)). split; [reflexivity|]. split; [exact O'|].
    split; [|split; [|split]].
    + destruct (W _ _ G) as ((A1 & A2 & A3 & A4) & A5 & A6). subst e.
      split; [cbn; tauto|]. split; [exact A5|exact A6].
    + intros x. ranges x. lia.
    + intros x. specialize (A x). specialize (L' x). unfold o', hc in *.
      cbn [rp ci va idg dg dp ep brw] in *. ranges x. destruct (brw o); lia.
    + intros (F & _). destruct (F _ eq_refl) as (F1 & F2). split; [left; exact F1|].
      intros x. rewrite F2. reflexivity.
  - destruct U as (o & G & F). rewrite G. cbv beta iota.
    apply (put_steps s lost _ a o _ I G).
    eapply result_weaken;
      [apply diagptr_result; [exact O|exact (W _ _ G)|exact (inv_acc _ _ _ _ I G)|apply filled_h, F]|].
    intros (R & T). split; [exact T|exact (R _ eq_refl)].
  - destruct U as (o & G & F & V). rewrite G. cbv beta iota.
    apply (put_steps s lost _ a o _ I G).
    eapply result_weaken;
      [apply invdiag_result; [exact O|exact (W _ _ G)|exact (inv_acc _ _ _ _ I G)|apply filled_h, F|exact V]|].
    intros (R & T). split; [exact T|exact (R _ eq_refl)].
  - destruct U as (o & G & F). rewrite G. cbv beta iota. apply add_steps; [exact I|].
    eapply permute_result; [exact O|exact (W _ _ G)|exact (inv_acc _ _ _ _ I G)|].
    apply filled_h, F.
  - destruct U as (o & G & F). rewrite G. cbv beta iota. apply add_steps; [exact I|].
    eapply transpose_result; [exact O|exact (W _ _ G)|exact (inv_acc _ _ _ _ I G)|].
    apply filled_h, F.
  - apply splitLU_steps; assumption.
Qed.

Lemma Inv_st0 : Inv st0 (fun _ => 0).
Proof.
  split; [|split].
  - split; intros x; unfold lc; cbn; lia.
  - intros a o H. unfold obj, st0, get in H. cbn [objs] in H.
    destruct (a <? 0); [discriminate|]. destruct (Z.to_nat a); discriminate.
  - intros x. unfold lc. cbn. lia.
Qed.

Lemma Tidy_st0 : Tidy st0.
Proof.
  intros a o H. unfold obj, st0, get in H. cbn [objs] in H.
  destruct (a <? 0); [discriminate|]. destruct (Z.to_nat a); discriminate.
Qed.

(** The calls of a program, one after the other. *)
Definition run (xs : list op) (s : state) : option state := foldM (fun x s => step s x) xs s.

Lemma run_steps xs : forall s lost, Inv s lost -> usable_run s xs ->
  exists s' lost', run xs s = Some s' /\ Inv s' lost' /\
    (frugal_run s xs -> Tidy s -> Tidy s' /\ forall x, lost' x = lost x).
Proof.
  induction xs as [|x xs IH]; intros s lost I U.
  - exists s, lost. split; [reflexivity|]. split; [exact I|]. intros _ T.
    split; [exact T|reflexivity].
  - destruct U as (U1 & U2). destruct (step_steps s lost x I U1) as (s1 & l1 & E & I1 & _ & F).
    destruct (IH s1 l1 I1 (U2 _ E)) as (s' & l' & E' & I' & F').
    exists s', l'. unfold run in *. cbn [foldM]. rewrite E. split; [exact E'|].
    split; [exact I'|]. intros (R1 & R2) T. destruct (F R1 T) as (T1 & Z1).
    destruct (F' (R2 _ E) T1) as (T2 & Z2). split; [exact T2|].
    intros y. rewrite Z2. apply Z1.
Qed.

Lemma held_tot os x :
  Z.of_nat (count_occ Z.eq_dec
    (concat (map (fun x => match x with Some o => arrays o | None => [] end) os)) x)
  = tot os x.
Proof.
  induction os as [|y os IH]; [reflexivity|]. cbn [map concat tot].
  rewrite count_occ_app, Nat2Z.inj_add, IH. destruct y as [o|]; cbn [oc].
  - rewrite arrays_hc. reflexivity.
  - reflexivity.
Qed.

(** No undefined behaviour; no two objects share an array; every array an
    object holds is allocated. *)
Theorem ownership_safe xs : usable_run st0 xs ->
  exists s, run xs st0 = Some s /\ NoDup (held s) /\ incl (held s) (live (hp s)).
Proof.
  intros U. destruct (run_steps xs st0 _ Inv_st0 U) as (s & lost & E & (O & W & L) & _).
  exists s. split; [exact E|]. split.
  - apply (NoDup_count_occ Z.eq_dec). intros x. pose proof (held_tot (objs s) x) as H.
    specialize (L x). destruct O as [O _]. specialize (O x). unfold held. lia.
  - intros b Hb. apply lc_In. apply (count_occ_In Z.eq_dec) in Hb.
    pose proof (held_tot (objs s) b) as H. specialize (L b). unfold held in Hb. lia.
Qed.

(** A frugal program: what is allocated is what the objects hold. *)
Theorem ownership_frugal xs s : usable_run st0 xs -> frugal_run st0 xs ->
  run xs st0 = Some s -> Permutation (live (hp s)) (held s).
Proof.
  intros U F E.
  destruct (run_steps xs st0 _ Inv_st0 U) as (s' & lost & E' & (O & W & L) & H).
  rewrite E in E'. inversion E'; subst s'. destruct (H F Tidy_st0) as (_ & Z0).
  apply (Permutation_count_occ Z.eq_dec). intros x.
  pose proof (held_tot (objs s) x) as Ht. specialize (L x). specialize (Z0 x).
  unfold held. unfold lc in L. lia.
Qed.

Theorem ownership_no_leak xs s : usable_run st0 xs -> frugal_run st0 xs ->
  run xs st0 = Some s -> (forall a, obj s a = None) -> live (hp s) = [].
Proof.
  intros U F E N. pose proof (ownership_frugal xs s U F E) as P.
  assert (H : held s = []).
  { unfold held. assert (G : forall y, In y (objs s) -> y = None).
    { intros y Hy. destruct y as [o|]; [|reflexivity]. exfalso.
      apply In_get in Hy. destruct Hy as (i & _ & Hi). specialize (N i). unfold obj in N.
      rewrite Hi in N. discriminate. }
    induction (objs s) as [|y os IH]; [reflexivity|]. cbn [map concat].
    rewrite (G y (or_introl eq_refl)). cbn [app]. apply IH.
    intros z Hz. apply G. right. exact Hz. }
  rewrite H in P. apply Permutation_sym, Permutation_nil in P. exact P.
Qed.

(** ** Programs that lose memory *)

(** All objects are deleted, and blocks remain. *)
Definition leaks (xs : list op) : Prop :=
  usable_run st0 xs /\
  exists s, run xs st0 = Some s /\ (forall a, obj s a = None) /\ live (hp s) <> [].

Ltac no_objs :=
  let a := fresh "a" in let y := fresh "y" in let E := fresh "E" in
  intros a; unfold obj; cbn [objs];
  match goal with |- context [get ?l a] =>
    destruct (get l a) as [y|] eqn:E; [|reflexivity]; apply get_In in E;
    cbn in E; repeat (destruct E as [E|E]; [subst y; reflexivity|]); destruct E
  end.

Ltac run_one :=
  cbn [usable_run frugal_run]; split;
  [cbn [usable frugal]
  |let s := fresh "s" in let E := fresh "E" in
   intros s E; vm_compute in E; injection E as E; subst s].

Ltac obj_ex := eexists; split; [vm_compute; reflexivity|].
Ltac fill := split; [discriminate|intros HB; first [discriminate|
  split; [exact I|split; [exact I|first [left; reflexivity|right; exact I]]]]].

Ltac u1 :=
  first [exact I
        |eexists; vm_compute; reflexivity
        |eexists; split; [vm_compute; reflexivity|fill]
        |eexists; split; [vm_compute; reflexivity|split; [fill|discriminate]]
        |split; [lia|split; [lia|split; [lia|]]];
         do 3 eexists; split; [vm_compute; reflexivity|];
         split; [vm_compute; reflexivity|]; split; [vm_compute; reflexivity|];
         split; [fill|]; split; [discriminate|]; split; [discriminate|];
         intros HB; discriminate].
Ltac urun := repeat (run_one; [u1|]); exact I.

Ltac leak := split; [urun|]; eexists; split; [vm_compute; reflexivity|];
  split; [no_objs|cbn; discriminate].

(** A permuted copy. *)
Definition prog_permute := [OFile (SrcMM true); OPermute 0; ODelete 1; ODelete 0].
(** A transpose. *)
Definition prog_transpose := [OFile (SrcMM false); OTranspose 0 false; ODelete 1; ODelete 0].
(** /repo/test/trsv_test.cpp:460-467, 816-818: [splitLU] into two matrices
    made by [CSR()]. *)
Definition prog_splitLU := [OFile SrcNumber; ONew; ONew; OSplitLU 0 1 2;
                            ODelete 2; ODelete 1; ODelete 0].
(** A Laplacian in a matrix made by [CSR()]. *)
Definition prog_laplacian := [ONew; OLaplacian 0; ODelete 0].
(** The inverse diagonal of a matrix in the memory pool. *)
Definition prog_pool := [OView PPool PPool PPool; OInvdiag 0; ODelete 0].
(** [alloc] for a matrix that has arrays. *)
Definition prog_alloc := [OSized; OAlloc 0 true; ODelete 0].

Theorem ownership_leaks :
  leaks prog_permute /\ leaks prog_transpose /\ leaks prog_splitLU /\
  leaks prog_laplacian /\ leaks prog_pool /\ leaks prog_alloc.
Proof.
  split; [leak|]. split; [leak|]. split; [leak|]. split; [leak|]. split; leak.
Qed.

(** [extptr] of a matrix that does not own its data survives [dealloc]: after
    [splitLU] with [extptr] and a Laplacian in the same U, U has the [extptr]
    of the factor. *)
Definition prog_stale := [OFile SrcNumber; OExtptr 0; ONew; ONew; OSplitLU 0 1 2; OLaplacian 2].

Theorem ownership_stale_extptr : usable_run st0 prog_stale /\
  exists s o, run prog_stale st0 = Some s /\ obj s 2 = Some o /\ ep o <> PNull /\ rp o <> PNull.
Proof.
  split; [urun|]. do 2 eexists. split; [vm_compute; reflexivity|].
  split; [vm_compute; reflexivity|]. split; discriminate.
Qed.

(** A program within the rules: a file, factors in matrices that own their
    data (twice), a copy, another file into the first matrix, a matrix over
    memory of the caller with its diagonal. *)
Definition prog_ok :=
  [OFile (SrcMM true); OSized; OSized; OSplitLU 0 1 2; OExtptr 0; OSplitLU 0 1 2;
   OCopy 0; OLoadBin 0 true; OView PUser PUser PUser; OInvdiag 4; OLoadBin 3 false].
Definition prog_ok_end := prog_ok ++ [ODelete 0; ODelete 3; ODelete 1; ODelete 2; ODelete 4].

Lemma prog_ok_usable : usable_run st0 prog_ok_end.
Proof. unfold prog_ok_end, prog_ok. cbn [app]. urun. Qed.

Ltac f1 := first
  [exact I
  |let o := fresh "o" in let E := fresh "E" in
   intros o E; vm_compute in E; injection E as E; subst o;
   first [reflexivity|discriminate|split; reflexivity]
  |split; let o := fresh "o" in let E := fresh "E" in
   intros o E; vm_compute in E; injection E as E; subst o; reflexivity].
Ltac frun := repeat (run_one; [f1|]); exact I.

Lemma prog_ok_frugal : frugal_run st0 prog_ok_end.
Proof. unfold prog_ok_end, prog_ok. cbn [app]. frun. Qed.

Lemma prog_ok_live : option_map (fun s => length (live (hp s))) (run prog_ok st0) = Some 17%nat
  /\ option_map (fun s => live (hp s)) (run prog_ok_end st0) = Some [].
Proof. split; vm_compute; reflexivity. Qed.
