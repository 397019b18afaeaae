#!/bin/bash
# regenerate _CoqProject file list (flags kept) and build
cd /verif/rocq
{ echo "-Q theories Verif"; ls theories/Model/*.v theories/Spec/*.v theories/Proofs/*.v theories/Props/*.v 2>/dev/null; } > _CoqProject
coq_makefile -f _CoqProject -o Makefile >/dev/null && timeout 2400 make -j4 "$@" 2>&1 | grep -v '^COQDEP\|Closed under the global context'
