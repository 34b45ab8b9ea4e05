#!/bin/bash
# Regenerate the derived files.
cd "$(dirname "$0")/.."
(cd rocq && (echo "-Q theories Verif"; ls theories/*.v) > _CoqProject)
python3 tools/props.py
python3 tools/manifest.py
