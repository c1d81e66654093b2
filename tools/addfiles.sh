#!/bin/bash
# Regenerate rocq/_CoqProject from the files in theories/ (keeps the flags line).
cd /verif/rocq
{ echo "-Q theories Verif"; ls theories/*.v; } > _CoqProject
