(** The native fields transcribed from generated code and the constants of their Sqrt and Invert methods. *)
From Coq Require Import ZArith NArith List.
From Verif Require Import Limbs.Model Limbs.FieldModel Limbs.ChainCode
  Limbs.K256fpCode Limbs.K256fqCode Limbs.P256fpCode Limbs.P256fqCode Limbs.PastafpCode Limbs.PastafqCode.
Import ListNotations.
Local Open Scope Z_scope.

(** k256/fp/fp.go:84-101 *)
Definition k256fp_sqrt := sqrt34 k256fp (L4 0xffffffffbfffff0c 0xffffffffffffffff 0xffffffffffffffff 0x3fffffffffffffff).
(** p256/fp/fp.go:84-100 *)
Definition p256fp_sqrt := sqrt34 p256fp (L4 0x0000000000000000 0x0000000040000000 0x4000000000000000 0x3fffffffc0000000).
(** k256/fq/fq.go:84-143, s from line 284 *)
Definition k256fq_sqrt := sqrt_ts k256fq 6
  (L4 0x777fa4bd19a06c82 0xfd755db9cd5e9140 0xffffffffffffffff 0x01ffffffffffffff)
  (L4 0x944cf2a220910e04 0x815c829c780589f4 0x55980b07bc222113 0xc702b0d248825b36).
(** p256/fq/fq.go:85-144, s from line 290 *)
Definition p256fq_sqrt := sqrt_ts p256fq 4
  (L4 0x279dce5617e3192a 0xfde737d56d38bcf4 0x07ffffffffffffff 0x07fffffff8000000)
  (L4 0x1015708f7e368fe1 0x31c6c5456ecc4511 0x5281fe8998a19ea1 0x0279089e10c63fe8).
(** pasta/fp/fp.go:231-285, s from line 32 *)
Definition pastafp_sqrt := pasta_sqrt pastafp 32
  (L4 0x04a67c8dcc969876 0x0000000011234c7e 0x0000000000000000 0x0000000020000000)
  (L4 0xa28db849bad6dbf0 0x9083cd03d3b539df 0xfba6b9ca9dc8448e 0x3ec928747b89c6da).
(** pasta/fq/fq.go:225-280, s from line 32 *)
Definition pastafq_sqrt := pasta_sqrt pastafq 32
  (L4 0x04ca546ec6237590 0x0000000011234c7e 0x0000000000000000 0x0000000020000000)
  (L4 0x218077428c9942de 0xcc49578921b60494 0xac2e5d27b2efbee2 0x0b79fa897f2db056).

(** k256/fp/fp.go:104-157, k256/fq/fq.go:146-260, p256/fp/fp.go:103-153, p256/fq/fq.go:147-266 *)
Definition k256fp_invert := invert k256fp k256fp_chain.
Definition k256fq_invert := invert k256fq k256fq_chain.
Definition p256fp_inverse := p256fp_invert p256fp.
Definition p256fq_invert := invert p256fq p256fq_chain.
(** pasta/fp/fp.go:290-298, pasta/fq/fq.go:284-292 *)
Definition pastafp_invert := pasta_invert pastafp (L4 0x992d30ecffffffff 0x224698fc094cf91b 0x0000000000000000 0x4000000000000000).
Definition pastafq_invert := pasta_invert pastafq (L4 0x8c46eb20ffffffff 0x224698fc0994a8dd 0x0000000000000000 0x4000000000000000).
