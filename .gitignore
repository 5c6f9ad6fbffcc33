.vscode
*.swp
